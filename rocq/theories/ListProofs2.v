From Coq Require Import Lia.
From Verif Require Import Base NumModel HeapModel EqModel ListModel ListSpec ListProofs.

(** ** cons, car, cdr *)
Lemma cons_list h a d cs xs fuel : wf h -> list_cells h d cs xs -> (length xs <= fuel)%nat ->
  exists p h' c, cons fuel a d h = Ok (p, h') /\ fresh_for h c /\
    list_cells h' p (c :: cs) (a :: xs) /\ extends h h' /\ wf h'.
Proof.
  intros W LC L. unfold cons. destruct LC as [(N&->&->)|(n&O&C)].
  - rewrite (bind_ok _ _ _ _ _ (get_ok _ _ _ N)). cbv iota beta.
    rewrite (bind_ok _ _ _ _ _ (allocc_eq _ _)). rewrite wrap_some.
    set (h1 := hallocc h _). assert (W1 : wf h1) by now apply wf_hallocc.
    exists (h_next h1), (halloc h1 (OList (h_next h))), (h_next h).
    split; auto. split; [now apply fresh_next; auto using extends_refl|]. split.
    + right. exists (h_next h). split; [cbn; now rewrite upd_same|].
      apply (chain_cons _ _ (mkCell a None false) [] []); cbn; auto using chain_nil.
      now rewrite upd_same.
    + split; [|now apply wf_halloc]. eapply extends_trans; [apply extends_hallocc; auto|].
      now apply extends_halloc.
  - rewrite (bind_ok _ _ _ _ _ (get_ok _ _ _ O)). cbv iota beta.
    rewrite (bind_ok _ _ _ _ _ (allocc_eq _ _)).
    set (h1 := hallocc h _). assert (W1 : wf h1) by now apply wf_hallocc.
    assert (E1 : extends h h1) by now apply extends_hallocc.
    assert (C1 : chain h1 (Some n) cs xs) by (eapply chain_extends; eauto).
    destruct (last_cell_ok _ _ _ _ C1 n fuel eq_refl L) as (t&kt&cs'&P&K&D&_).
    rewrite (bind_ok _ _ _ _ _ P). rewrite wrap_some.
    assert (E2 : extends h1 (halloc h1 (OList (h_next h)))) by now apply extends_halloc.
    exists (h_next h1), (halloc h1 (OList (h_next h))), (h_next h).
    split; auto. split; [now apply fresh_next; auto using extends_refl|]. split.
    + right. exists (h_next h). split; [cbn; now rewrite upd_same|].
      apply (chain_cons _ _ (mkCell a (Some n) false)).
      * cbn. now rewrite upd_same.
      * reflexivity.
      * cbn. eapply chain_extends; eauto.
    + split; [|now apply wf_halloc]. eapply extends_trans; eauto.
Qed.
Definition is_atom (o : obj) : Prop := (forall c, o <> OList c) /\ o <> ONil.
Lemma cons_atom h a d o fuel : wf h -> h_obj h d = Some o -> is_atom o ->
  exists p h', cons fuel a d h = Ok (p, h') /\ is_dotted_list h' p [a] d /\ extends h h' /\ wf h'.
Proof.
  intros W O (A1&A2). unfold cons. rewrite (bind_ok _ _ _ _ _ (get_ok _ _ _ O)).
  assert (X : forall h, wf h ->
    exists p h', (let! n := alloc_cell (mkCell d None true) in
      let! c := alloc_cell (mkCell a (Some n) false) in wrap (Some c)) h = Ok (p, h') /\
      is_dotted_list h' p [a] d /\ extends h h' /\ wf h').
  { clear h W O. intros h W. rewrite (bind_ok _ _ _ _ _ (allocc_eq _ _)).
    set (h1 := hallocc h _). assert (W1 : wf h1) by now apply wf_hallocc.
    rewrite (bind_ok _ _ _ _ _ (allocc_eq _ _)).
    set (h2 := hallocc h1 _). assert (W2 : wf h2) by now apply wf_hallocc.
    rewrite wrap_some. do 2 eexists. split; [reflexivity|]. split; [|split].
    - exists (h_next h1), [h_next h1; h_next h]. split; [cbn; now rewrite upd_same|].
      split; [discriminate|].
      apply (dchain_cons _ _ (mkCell a (Some (h_next h)) false)); [|reflexivity|].
      + cbn. now rewrite upd_same.
      + cbn. apply (dchain_end _ _ (mkCell d None true)); auto.
        cbn. rewrite upd_other by lia. now rewrite upd_same.
    - eapply extends_trans; [|apply extends_halloc; auto].
      eapply extends_trans; [apply extends_hallocc; auto|]. now apply extends_hallocc.
    - now apply wf_halloc. }
  destruct o; try (apply X; auto); exfalso; [apply A2; reflexivity|eapply A1; reflexivity].
Qed.
Lemma cons_dotted h a d xs e fuel : wf h -> is_dotted_list h d xs e -> (S (length xs) <= fuel)%nat ->
  exists p h', cons fuel a d h = Ok (p, h') /\ is_dotted_list h' p (a :: xs) e /\ extends h h' /\ wf h'.
Proof.
  intros W (n&cs&O&N&C) L. unfold cons.
  rewrite (bind_ok _ _ _ _ _ (get_ok _ _ _ O)). cbv iota beta.
  rewrite (bind_ok _ _ _ _ _ (allocc_eq _ _)).
  set (h1 := hallocc h _). assert (W1 : wf h1) by now apply wf_hallocc.
  assert (E1 : extends h h1) by now apply extends_hallocc.
  assert (C1 : dchain h1 (Some n) cs xs e) by (eapply dchain_extends; eauto).
  destruct (last_cell_dotted _ _ _ _ _ C1 n fuel eq_refl L) as (t&kt&P&K&D&_).
  rewrite (bind_ok _ _ _ _ _ P). rewrite wrap_some.
  assert (E2 : extends h1 (halloc h1 (OList (h_next h)))) by now apply extends_halloc.
  do 2 eexists. split; [reflexivity|]. split; [|split; [eapply extends_trans; eauto|now apply wf_halloc]].
  exists (h_next h), (h_next h :: cs). split; [cbn; now rewrite upd_same|]. split; [discriminate|].
  apply (dchain_cons _ _ (mkCell a (Some n) false)).
  - cbn. now rewrite upd_same.
  - reflexivity.
  - cbn. eapply dchain_extends; eauto.
Qed.
Lemma cons_circular h a d n fuel : wf h -> h_obj h d = Some (OList n) -> circular h n ->
  cons fuel a d h = Fuel.
Proof.
  intros W O C. unfold cons.
  rewrite (bind_ok _ _ _ _ _ (get_ok _ _ _ O)). cbv iota beta.
  rewrite (bind_ok _ _ _ _ _ (allocc_eq _ _)). unfold mbind.
  rewrite last_cell_circular; auto.
  destruct C as (S&Sc&SS). exists S. split; auto. intros x Sx.
  destruct (SS x Sx) as (k&m&K&D&N&Sm). exists k, m. repeat split; auto.
  now apply extends_hallocc.
Qed.

Lemma car_list h p c cs x xs : list_cells h p (c :: cs) (x :: xs) -> car p h = Ok (x, h).
Proof.
  intros [(N&E&_)|(n&O&C)]; [discriminate|]. unfold car.
  destruct (chain_inv_some _ _ _ _ C) as (k&cs'&xs'&K&D&C'&E1&E2). inversion E1; inversion E2; subst.
  rewrite (bind_ok _ _ _ _ _ (get_ok _ _ _ O)). cbv iota beta.
  now rewrite (bind_ok _ _ _ _ _ (getc_ok _ _ _ K)).
Qed.
Lemma car_dotted h p x xs d : is_dotted_list h p (x :: xs) d -> car p h = Ok (x, h).
Proof.
  intros (n&cs&O&_&C). unfold car. inversion C; subst.
  rewrite (bind_ok _ _ _ _ _ (get_ok _ _ _ O)). cbv iota beta.
  erewrite bind_ok by (apply getc_ok; eauto). reflexivity.
Qed.
Lemma cdr_list h p c cs x xs : wf h -> list_cells h p (c :: cs) (x :: xs) ->
  exists q h', cdr p h = Ok (q, h') /\ list_cells h' q cs xs /\ extends h h' /\ wf h' /\
    (xs = [] -> q = nil_a /\ h' = h).
Proof.
  intros W [(N&E&_)|(n&O&C)]; [discriminate|]. unfold cdr.
  destruct (chain_inv_some _ _ _ _ C) as (k&cs'&xs'&K&D&C'&E1&E2). inversion E1; inversion E2; subst.
  rewrite (bind_ok _ _ _ _ _ (get_ok _ _ _ O)). cbv iota beta.
  rewrite (bind_ok _ _ _ _ _ (getc_ok _ _ _ K)).
  destruct (c_next k) as [m|] eqn:Nx.
  - destruct (chain_inv_some _ _ _ _ C') as (k'&cs2&xs2&K'&D'&C2&E3&E4).
    rewrite (bind_ok _ _ _ _ _ (getc_ok _ _ _ K')). rewrite D'. rewrite alloc_eq.
    do 2 eexists. split; [reflexivity|].
    split; [|split; [now apply extends_halloc|split; [now apply wf_halloc|subst; discriminate]]].
    right. exists m. split; [cbn; now rewrite upd_same|].
    eapply chain_extends; eauto. now apply extends_halloc.
  - destruct (chain_inv_none _ _ _ C') as [-> ->]. exists nil_a, h.
    split; [reflexivity|]. split; [left; repeat split; auto; apply W|].
    split; [apply extends_refl|]. split; auto.
Qed.
Lemma cdr_dotted1 h p x d : is_dotted_list h p [x] d -> cdr p h = Ok (d, h).
Proof.
  intros (n&cs&O&_&C). unfold cdr. inversion C as [|? k ? ? ? K D C']; subst.
  rewrite (bind_ok _ _ _ _ _ (get_ok _ _ _ O)). cbv iota beta.
  rewrite (bind_ok _ _ _ _ _ (getc_ok _ _ _ K)).
  inversion C' as [m k' K' D' N' E1 E2|]; subst.
  rewrite (bind_ok _ _ _ _ _ (getc_ok _ _ _ K')). now rewrite D'.
Qed.
Lemma cdr_dotted2 h p x y xs d : wf h -> is_dotted_list h p (x :: y :: xs) d ->
  exists q h', cdr p h = Ok (q, h') /\ is_dotted_list h' q (y :: xs) d /\ extends h h' /\ wf h'.
Proof.
  intros W (n&cs&O&_&C). unfold cdr. inversion C as [|? k ? ? ? K D C']; subst.
  rewrite (bind_ok _ _ _ _ _ (get_ok _ _ _ O)). cbv iota beta.
  rewrite (bind_ok _ _ _ _ _ (getc_ok _ _ _ K)).
  destruct (c_next k) as [m|] eqn:Nx; [|inversion C'].
  assert (exists k', h_cell h m = Some k' /\ c_dotted k' = false) as (k'&K'&D') by (inversion C'; eauto).
  rewrite (bind_ok _ _ _ _ _ (getc_ok _ _ _ K')). rewrite D'. rewrite alloc_eq.
  do 2 eexists. split; [reflexivity|]. split; [|split; [now apply extends_halloc|now apply wf_halloc]].
  exists m. eexists. split; [cbn; now rewrite upd_same|]. split; [discriminate|].
  eapply dchain_extends; [now apply extends_halloc|]. exact C'.
Qed.
Lemma car_nonpair h p o : h_obj h p = Some o -> (forall c, o <> OList c) -> car p h = Err /\ cdr p h = Err.
Proof.
  intros O N. unfold car, cdr. rewrite !(bind_ok _ _ _ _ _ (get_ok _ _ _ O)).
  destruct o; try (split; reflexivity). exfalso. eapply N; reflexivity.
Qed.

(** ** set-car!, set-cdr! *)
Lemma set_car_ok h p v c k : h_obj h p = Some (OList c) -> h_cell h c = Some k ->
  exists h', set_car p v h = Ok (none_a, h') /\
    h_cell h' c = Some (mkCell v (c_next k) (c_dotted k)) /\
    (forall d, d <> c -> h_cell h' d = h_cell h d) /\ h_obj h' = h_obj h /\ h_next h' = h_next h.
Proof.
  intros O K. unfold set_car. rewrite (bind_ok _ _ _ _ _ (get_ok _ _ _ O)). cbv iota beta.
  rewrite (bind_ok _ _ _ _ _ (getc_ok _ _ _ K)).
  erewrite bind_ok; [|unfold setc; rewrite K; reflexivity].
  eexists. split; [reflexivity|]. cbn. rewrite upd_same. repeat split; auto.
  intros d N. now rewrite upd_other.
Qed.
Lemma set_car_alias h p v c k : h_obj h p = Some (OList c) -> h_cell h c = Some k ->
  exists h', set_car p v h = Ok (none_a, h') /\
    (forall q, h_obj h q = Some (OList c) -> car q h' = Ok (v, h')) /\
    (forall q d x, h_obj h q = Some (OList d) -> d <> c -> car q h = Ok (x, h) -> car q h' = Ok (x, h')).
Proof.
  intros O K. destruct (set_car_ok h p v c k O K) as (h'&P&C&F&Ho&_).
  exists h'. split; auto. split.
  - intros q Q. unfold car. rewrite <- Ho in Q. rewrite (bind_ok _ _ _ _ _ (get_ok _ _ _ Q)).
    now rewrite (bind_ok _ _ _ _ _ (getc_ok _ _ _ C)).
  - intros q d x Q N. pose proof Q as Q'. rewrite <- Ho in Q'. unfold car.
    rewrite (bind_ok _ _ _ _ _ (get_ok _ _ _ Q)), (bind_ok _ _ _ _ _ (get_ok _ _ _ Q')).
    unfold mbind, getc. rewrite (F d N). destruct (h_cell h d) as [kd|]; [|discriminate].
    unfold ret. intros E. inversion E. reflexivity.
Qed.
(* set-cdr! with a list: the cdr becomes exactly that list's cells *)
Lemma set_cdr_list h p v c k n : h_obj h p = Some (OList c) -> h_cell h c = Some k ->
  h_obj h v = Some (OList n) ->
  exists h', set_cdr p v h = Ok (none_a, h') /\
    h_cell h' c = Some (mkCell (c_data k) (Some n) (c_dotted k)) /\
    (forall d, d <> c -> h_cell h' d = h_cell h d) /\ h_obj h' = h_obj h.
Proof.
  intros O K V. unfold set_cdr. rewrite (bind_ok _ _ _ _ _ (get_ok _ _ _ O)). cbv iota beta.
  rewrite (bind_ok _ _ _ _ _ (get_ok _ _ _ V)). cbv iota beta.
  rewrite (bind_ok _ _ _ _ _ (getc_ok _ _ _ K)).
  erewrite bind_ok; [|unfold setc; rewrite K; reflexivity].
  eexists. split; [reflexivity|]. cbn. rewrite upd_same. repeat split; auto.
  intros d N. now rewrite upd_other.
Qed.
Lemma set_cdr_nil h p v c k : h_obj h p = Some (OList c) -> h_cell h c = Some k ->
  h_obj h v = Some ONil ->
  exists h', set_cdr p v h = Ok (none_a, h') /\
    h_cell h' c = Some (mkCell (c_data k) None (c_dotted k)) /\
    (forall d, d <> c -> h_cell h' d = h_cell h d) /\ h_obj h' = h_obj h.
Proof.
  intros O K V. unfold set_cdr. rewrite (bind_ok _ _ _ _ _ (get_ok _ _ _ O)). cbv iota beta.
  rewrite (bind_ok _ _ _ _ _ (get_ok _ _ _ V)). cbv iota beta.
  rewrite (bind_ok _ _ _ _ _ (getc_ok _ _ _ K)).
  erewrite bind_ok; [|unfold setc; rewrite K; reflexivity].
  eexists. split; [reflexivity|]. cbn. rewrite upd_same. repeat split; auto.
  intros d N. now rewrite upd_other.
Qed.
Lemma set_cdr_atom h p v c k o : wf h -> h_obj h p = Some (OList c) -> h_cell h c = Some k ->
  h_obj h v = Some o -> is_atom o ->
  exists h', set_cdr p v h = Ok (none_a, h') /\ cdr p h' = Ok (v, h') /\
    (forall d, d <> c -> h_cell h d <> None -> h_cell h' d = h_cell h d) /\ h_obj h' = h_obj h.
Proof.
  intros W O K V (A1&A2). unfold set_cdr. rewrite (bind_ok _ _ _ _ _ (get_ok _ _ _ O)). cbv iota beta.
  rewrite (bind_ok _ _ _ _ _ (get_ok _ _ _ V)).
  assert (Kn : (c < h_next h)%nat) by (eapply wf_cell_lt; eauto).
  assert (X : exists h', (let! n := alloc_cell (mkCell v None true) in
          let! k := getc c in
          let! _ := setc c (mkCell (c_data k) (Some n) (c_dotted k)) in ret none_a) h = Ok (none_a, h') /\
          cdr p h' = Ok (v, h') /\
    (forall d, d <> c -> h_cell h d <> None -> h_cell h' d = h_cell h d) /\ h_obj h' = h_obj h).
  { rewrite (bind_ok _ _ _ _ _ (allocc_eq _ _)).
    assert (K1 : h_cell (hallocc h (mkCell v None true)) c = Some k) by (cbn; rewrite upd_other; [auto|lia]).
    rewrite (bind_ok _ _ _ _ _ (getc_ok _ _ _ K1)).
    erewrite bind_ok; [|unfold setc; rewrite K1; reflexivity].
    eexists. split; [reflexivity|]. split; [|split].
    - unfold cdr. erewrite bind_ok by (apply get_ok; cbn; eauto). cbv iota beta.
      erewrite bind_ok by (apply getc_ok; cbn; rewrite upd_same; reflexivity). cbn [c_next].
      erewrite bind_ok; [|apply getc_ok; cbn; rewrite upd_other by lia; rewrite upd_same; reflexivity].
      reflexivity.
    - intros d N Hd. cbn. rewrite upd_other by auto. rewrite upd_other; auto.
      intros ->. apply Hd. apply W. lia.
    - reflexivity. }
  destruct o; try apply X; exfalso; [apply A2; reflexivity|eapply A1; reflexivity].
Qed.

(** ** last-pair *)
Lemma chain_nth h l cs xs : chain h l cs xs -> forall i c, nth_error cs i = Some c ->
  exists k, h_cell h c = Some k /\ c_dotted k = false /\ c_next k = nth_error cs (S i) /\
    nth_error xs i = Some (c_data k).
Proof.
  induction 1; intros i c0 N; [destruct i; discriminate|].
  destruct i; cbn in N.
  - inversion N; subst. exists k. repeat split; auto. cbn.
    destruct H1; reflexivity.
  - destruct (IHchain i c0 N) as (k'&A&B&C&D). exists k'. repeat split; auto.
Qed.
Lemma last_pair_loop_ok h l cs xs : chain h l cs xs -> forall fuel i t hr,
  (length cs - 2 * i < fuel)%nat -> nth_error cs i = Some t -> nth_error cs (2 * i) = Some hr ->
  exists c, last_pair_loop fuel t hr h = Ok (h_next h, halloc h (OList c)) /\
    nth_error cs (if Nat.odd (length cs) then (length cs - 1) / 2 else length cs - 1)%nat = Some c.
Proof.
  intros C. induction fuel as [|f IH]; intros i t hr L T Hr; [lia|].
  cbn [last_pair_loop].
  destruct (chain_nth _ _ _ _ C _ _ Hr) as (k1&K1&_&N1&_).
  rewrite (bind_ok _ _ _ _ _ (getc_ok _ _ _ K1)).
  rewrite N1. destruct (nth_error cs (S (2 * i))) as [hr1|] eqn:E1.
  - destruct (chain_nth _ _ _ _ C _ _ E1) as (k2&K2&_&N2&_).
    rewrite (bind_ok _ _ _ _ _ (getc_ok _ _ _ K2)). rewrite N2.
    destruct (nth_error cs (S (S (2 * i)))) as [hr2|] eqn:E2.
    + destruct (chain_nth _ _ _ _ C _ _ T) as (k3&K3&_&N3&_).
      rewrite (bind_ok _ _ _ _ _ (getc_ok _ _ _ K3)). rewrite N3.
      pose proof (proj1 (nth_error_Some cs (S (S (2 * i)))) ltac:(congruence)) as L2.
      destruct (nth_error cs (S i)) as [t'|] eqn:E3;
        [|apply nth_error_None in E3; lia].
      destruct (Nat.eqb_spec hr2 t') as [->|Ne].
      * exfalso. pose proof (chain_nodup _ _ _ _ C) as ND.
        rewrite NoDup_nth_error in ND. assert (S (S (2 * i)) = S i); [|lia].
        apply ND; [lia|]. now rewrite E2, E3.
      * apply (IH (S i)); auto; [lia|]. replace (2 * S i)%nat with (S (S (2 * i))) by lia. auto.
    + apply nth_error_None in E2.
      pose proof (proj1 (nth_error_Some cs (S (2 * i))) ltac:(congruence)) as L2.
      assert (Ln : length cs = (2 * (i + 1))%nat) by lia.
      exists hr1. split; [reflexivity|]. rewrite Ln.
      replace (Nat.odd (2 * (i + 1))) with false.
      * replace (2 * (i + 1) - 1)%nat with (S (2 * i)) by lia. auto.
      * symmetry. rewrite Nat.odd_mul. reflexivity.
  - apply nth_error_None in E1.
    pose proof (proj1 (nth_error_Some cs (2 * i)) ltac:(congruence)) as L2.
    assert (Ln : length cs = (2 * i + 1)%nat) by lia.
    exists t. split; [reflexivity|]. rewrite Ln.
    replace (Nat.odd (2 * i + 1)) with true.
    + replace ((2 * i + 1 - 1) / 2)%nat with i; auto.
      replace (2 * i + 1 - 1)%nat with (i * 2)%nat by lia. now rewrite Nat.div_mul.
    + symmetry. rewrite Nat.odd_add. rewrite Nat.odd_mul. reflexivity.
Qed.
Lemma last_pair_ok h a cs xs fuel : wf h -> list_cells h a cs xs -> xs <> [] -> (length xs < fuel)%nat ->
  exists r h' c, last_pair fuel a h = Ok (r, h') /\ h_obj h' r = Some (OList c) /\
    extends h h' /\ wf h' /\
    nth_error cs (if Nat.odd (length xs) then (length xs - 1) / 2 else length xs - 1)%nat = Some c.
Proof.
  intros W [(N&->&->)|(c0&O&C)] Ne L; [congruence|]. unfold last_pair.
  rewrite (bind_ok _ _ _ _ _ (get_ok _ _ _ O)). cbv iota beta.
  rewrite <- (chain_len _ _ _ _ C) in L.
  destruct (chain_inv_some _ _ _ _ C) as (k&cs'&xs'&K&D&C'&E1&E2).
  destruct (last_pair_loop_ok _ _ _ _ C fuel 0 c0 c0) as (c&P&Q); [lia|now subst|now subst|].
  rewrite P. do 3 eexists. split; [reflexivity|]. split; [cbn; now rewrite upd_same|].
  split; [now apply extends_halloc|]. split; [now apply wf_halloc|].
  rewrite <- (chain_len _ _ _ _ C). exact Q.
Qed.
Lemma nth_error_last {A} (cs : list A) c : nth_error cs (length cs - 1) = Some c -> exists cs', cs = cs' ++ [c].
Proof.
  intros N. destruct (exists_last (l:=cs)) as (cs'&x&->).
  - intros ->. discriminate.
  - exists cs'. rewrite app_length in N. cbn in N.
    replace (length cs' + 1 - 1)%nat with (length cs') in N by lia.
    rewrite nth_error_app2 in N by lia. rewrite Nat.sub_diag in N. cbn in N. congruence.
Qed.

(** Floyd's loop ends on a circular list. *)
Lemma dup_or_not (l : list nat) : NoDup l \/ exists i j x, (i < j)%nat /\ nth_error l i = Some x /\ nth_error l j = Some x.
Proof.
  induction l as [|a l [ND|(i&j&x&L&A&B)]].
  - left; constructor.
  - destruct (in_dec Nat.eq_dec a l) as [I|NI].
    + right. destruct (In_nth_error _ _ I) as [n E]. exists 0%nat, (S n), a. repeat split; auto. lia.
    + left. now constructor.
  - right. exists (S i), (S j), x. repeat split; auto. lia.
Qed.
Lemma circular_nth h c : circular h c -> forall n, exists d, nth_cell h n c = Some d /\
  circular h d.
Proof.
  intros (S&Sc&SS) n. revert c Sc. induction n as [|n IH]; intros c Sc; cbn.
  - exists c. split; auto. exists S. auto.
  - destruct (SS c Sc) as (k&m&K&D&N&Sm). rewrite K, N. auto.
Qed.
Lemma nth_cell_add h n : forall m c d, nth_cell h n c = Some d -> nth_cell h (n + m) c = nth_cell h m d.
Proof.
  induction n as [|n IH]; intros m c d E; cbn in *; [now inversion E|].
  destruct (h_cell h c) as [k|]; [|discriminate]. destruct (c_next k); [|discriminate]. auto.
Qed.
Lemma floyd_meets h c : wf h -> circular h c ->
  exists t, (1 <= t)%nat /\ nth_cell h (2 * t) c = nth_cell h t c.
Proof.
  intros W Ci. pose proof (circular_nth h c Ci) as Nth.
  set (f := fun n : nat => match nth_cell h n c return nat with Some d => d | None => 0%nat end).
  assert (Hf : forall n, nth_cell h n c = Some (f n)).
  { intros n. destruct (Nth n) as (d&E&_). unfold f. now rewrite E. }
  assert (Lt : forall n, (f n < h_next h)%nat).
  { intros n. destruct (Nth n) as (d&E&(S&Sd&SS)). destruct (SS d Sd) as (k&m&K&_).
    unfold f. rewrite E. eapply wf_cell_lt; eauto. }
  set (N := h_next h).
  destruct (dup_or_not (map f (seq 0 (S N)))) as [ND|(i&j&x&L&A&B)].
  - exfalso. assert (I : incl (map f (seq 0 (S N))) (seq 0 N)).
    { intros y Hy. apply in_map_iff in Hy. destruct Hy as (n&<-&_). apply in_seq. pose proof (Lt n). unfold N. lia. }
    pose proof (NoDup_incl_length ND I) as Le. rewrite map_length, !seq_length in Le. lia.
  - assert (Bj : (j < S N)%nat).
    { pose proof (proj1 (nth_error_Some (map f (seq 0 (S N))) j) ltac:(congruence)) as Q.
      now rewrite map_length, seq_length in Q. }
    assert (X : forall n, (n < S N)%nat -> nth_error (map f (seq 0 (S N))) n = Some (f n)).
    { intros n Hn. erewrite map_nth_error; [reflexivity|]. rewrite nth_error_nth' with (d := 0%nat) by now rewrite seq_length.
      now rewrite seq_nth. }
    rewrite X in A by lia. rewrite X in B by lia.
    assert (Fij : f i = f j) by congruence.
    set (lam := (j - i)%nat).
    assert (P1 : forall n, (i <= n)%nat -> nth_cell h (n + lam) c = nth_cell h n c).
    { intros n Hn. replace (n + lam)%nat with (j + (n - i))%nat by (unfold lam; lia).
      rewrite (nth_cell_add h j (n - i) c (f j) (Hf j)).
      replace n with (i + (n - i))%nat at 2 by lia.
      rewrite (nth_cell_add h i (n - i) c (f i) (Hf i)). now rewrite Fij. }
    assert (P2 : forall q n, (i <= n)%nat -> nth_cell h (n + q * lam) c = nth_cell h n c).
    { induction q as [|q IHq]; intros n Hn; [now rewrite Nat.add_0_r|].
      replace (n + S q * lam)%nat with ((n + q * lam) + lam)%nat by (cbn; lia).
      rewrite P1 by lia. auto. }
    exists ((i + 1) * lam)%nat. assert (1 <= lam)%nat by (unfold lam; lia).
    split; [nia|]. replace (2 * ((i + 1) * lam))%nat with ((i + 1) * lam + (i + 1) * lam)%nat by lia.
    apply P2. nia.
Qed.
Lemma last_pair_circular h a c : wf h -> h_obj h a = Some (OList c) -> circular h c ->
  exists n, forall fuel, (n <= fuel)%nat -> last_pair fuel a h = Err.
Proof.
  intros W O Ci. destruct (floyd_meets h c W Ci) as (t&T1&Tm).
  exists t. intros fuel L. unfold last_pair. rewrite (bind_ok _ _ _ _ _ (get_ok _ _ _ O)). cbv iota beta.
  pose proof (circular_nth h c Ci) as Nth.
  assert (Step : forall n x, nth_cell h n c = Some x ->
     exists k y, h_cell h x = Some k /\ c_next k = Some y /\ nth_cell h (S n) c = Some y).
  { intros n x E. destruct (Nth n) as (d&E'&(S&Sd&SS)). replace d with x in * by congruence.
    destruct (SS x Sd) as (k&m&K&_&N&_). exists k, m. repeat split; auto.
    replace (Datatypes.S n) with (n + 1)%nat by lia. rewrite (nth_cell_add h n 1 c x E). cbn. now rewrite K, N. }
  assert (G : forall d i fuel tt hh, (t - i <= d)%nat -> (i < t)%nat -> (t - i <= fuel)%nat ->
     nth_cell h i c = Some tt -> nth_cell h (2 * i) c = Some hh -> last_pair_loop fuel tt hh h = Err).
  { induction d as [|d IH]; intros i f tt hh D I F A B; [lia|].
    destruct f; [lia|]. cbn [last_pair_loop].
    destruct (Step _ _ B) as (k1&h1&K1&N1&B1).
    rewrite (bind_ok _ _ _ _ _ (getc_ok _ _ _ K1)). rewrite N1.
    destruct (Step _ _ B1) as (k2&h2&K2&N2&B2).
    rewrite (bind_ok _ _ _ _ _ (getc_ok _ _ _ K2)). rewrite N2.
    destruct (Step _ _ A) as (k3&h3&K3&N3&A1).
    rewrite (bind_ok _ _ _ _ _ (getc_ok _ _ _ K3)). rewrite N3.
    destruct (Nat.eqb_spec h2 h3) as [|Ne]; [reflexivity|].
    apply (IH (S i)); auto; try lia.
    - destruct (Nat.eq_dec (S i) t) as [<-|]; [|lia].
      exfalso. apply Ne. replace (2 * S i)%nat with (S (S (2 * i))) in Tm by lia. congruence.
    - replace (2 * S i)%nat with (S (S (2 * i))) by lia. auto. }
  apply (G t 0%nat); auto; lia.
Qed.

(** ** list? *)
Definition cells_ok (h : heap) : Prop :=
  forall c k n, h_cell h c = Some k -> c_next k = Some n -> h_cell h n <> None.
Lemma is_list_loop_ok h : cells_ok h -> forall fuel n c k, (10001 - n < Z.of_nat fuel) -> 0 <= n <= 10001 ->
  h_cell h c = Some k ->
  exists b, is_list_loop fuel n c h = Ok (b, h) /\
    (b = true <-> exists cs xs, chain h (Some c) cs xs /\ n + Z.of_nat (length xs) <= 10001).
Proof.
  intros OK. induction fuel as [|f IH]; intros n c k L Nn K; [lia|].
  cbn [is_list_loop]. rewrite Z.gtb_ltb. destruct (Z.ltb_spec 10000 n) as [G|G].
  - exists false. split; auto. split; [discriminate|].
    intros (cs&xs&C&Le). destruct (chain_inv_some _ _ _ _ C) as (k'&cs'&xs'&_&_&_&_&->). cbn [length] in Le. lia.
  - rewrite (bind_ok _ _ _ _ _ (getc_ok _ _ _ K)).
    destruct (c_dotted k) eqn:D.
    + exists false. split; auto. split; [discriminate|].
      intros (cs&xs&C&Le). destruct (chain_inv_some _ _ _ _ C) as (k'&cs'&xs'&K'&D'&_). congruence.
    + destruct (c_next k) as [m|] eqn:Nx.
      * destruct (h_cell h m) as [km|] eqn:Km; [|exfalso; eapply OK; eauto].
        destruct (IH (n + 1) m km) as (b&P&Q); [lia|lia|auto|].
        exists b. split; auto. rewrite Q. split.
        -- intros (cs&xs&C&Le). exists (c :: cs), (c_data k :: xs). split; [|cbn [length]; lia].
           econstructor; eauto. now rewrite Nx.
        -- intros (cs&xs&C&Le). destruct (chain_inv_some _ _ _ _ C) as (k'&cs'&xs'&K'&D'&C'&->&->).
           replace k' with k in * by congruence. rewrite Nx in C'.
           exists cs', xs'. split; auto. cbn [length] in Le. lia.
      * exists true. split; auto. split; auto. intros _.
        exists [c], [c_data k]. split; [|cbn; lia]. econstructor; eauto. rewrite Nx. constructor.
Qed.
Lemma is_list_prim_ok h a o fuel : cells_ok h -> h_obj h a = Some o -> 10002 <= Z.of_nat fuel ->
  (forall c, o = OList c -> h_cell h c <> None) ->
  exists b, is_list_prim fuel a h = Ok (bool_a b, h) /\
    (b = true <-> exists xs, is_list h a xs /\ Z.of_nat (length xs) <= 10001).
Proof.
  intros OK O L V. unfold is_list_prim. rewrite (bind_ok _ _ _ _ _ (get_ok _ _ _ O)).
  assert (X : (forall c, o <> OList c) -> o <> ONil ->
     ~ exists xs, is_list h a xs /\ Z.of_nat (length xs) <= 10001).
  { intros N1 N2 (xs&(cs&[(Q&_)|(c&Q&_)])&_); rewrite O in Q; inversion Q; [auto|eapply N1; eauto]. }
  destruct o; try (exists false; split; [reflexivity|]; split; [discriminate|]; intros Y; exfalso; revert Y; apply X; congruence).
  - exists true. split; auto. split; auto. intros _. exists []. split; [|cbn; lia]. exists []. left. auto.
  - destruct (h_cell h c) as [k|] eqn:K; [|exfalso; eapply V; eauto].
    destruct (is_list_loop_ok h OK fuel 0 c k ltac:(lia) ltac:(lia) K) as (b&P&Q).
    rewrite (bind_ok _ _ _ _ _ P). exists b. split; auto. rewrite Q. split.
    + intros (cs&xs&C&Le). exists xs. split; [|lia]. exists cs. right. exists c. auto.
    + intros (xs&(cs&[(Z1&_)|(c'&Z1&C)])&Le); rewrite O in Z1; inversion Z1; subst. exists cs, xs. auto.
Qed.
Lemma circular_no_chain h l cs xs : chain h l cs xs -> forall c, l = Some c -> circular h c -> False.
Proof.
  induction 1; intros c0 E (S&Sc&SS); [discriminate|]. inversion E; subst c0.
  destruct (SS c Sc) as (k'&m&K&_&N&Sm). replace k' with k in * by congruence.
  eapply IHchain; eauto. exists S. auto.
Qed.

(** ** memq, memv, member *)
Definition first_match (f : addr -> bool) (xs : list addr) (i : nat) : Prop :=
  (exists x, nth_error xs i = Some x /\ f x = true) /\
  (forall j x, (j < i)%nat -> nth_error xs j = Some x -> f x = false).
Lemma mem_loop_ok h (p : addr -> M bool) f l cs xs : chain h l cs xs -> forall fuel, (length xs <= fuel)%nat ->
  (forall y, In y xs -> p y h = Ok (f y, h)) ->
  (forall y, In y xs -> f y = false) /\ mem_loop fuel p l h = Ok (false_a, h) \/
  exists i c, first_match f xs i /\ nth_error cs i = Some c /\
    mem_loop fuel p l h = Ok (h_next h, halloc h (OList c)).
Proof.
  induction 1; intros fuel L Hp.
  - left. split; [intros y []|]. destruct fuel; reflexivity.
  - destruct fuel; cbn [length] in L; [lia|]. cbn [mem_loop].
    rewrite (bind_ok _ _ _ _ _ (getc_ok _ _ _ H)).
    rewrite (bind_ok _ _ _ _ _ (Hp (c_data k) (or_introl eq_refl))).
    destruct (f (c_data k)) eqn:F.
    + right. exists 0%nat, c. split; [split|].
      * exists (c_data k). auto.
      * intros j x Lt; lia.
      * auto.
    + destruct (IHchain fuel ltac:(lia)) as [(A&B)|(i&c'&(A1&A2)&B&C)].
      * intros y I. apply Hp. now right.
      * left. split; auto. intros y [<-|I]; auto.
      * right. exists (S i), c'. split; [split|split]; auto.
        intros [|j] x Lt N; cbn in N; [congruence|]. eapply A2; [|eauto]. lia.
Qed.
Lemma mem_prim_ok h (p : addr -> M bool) f a cs xs fuel : wf h -> list_cells h a cs xs -> (length xs <= fuel)%nat ->
  (forall y, In y xs -> p y h = Ok (f y, h)) ->
  (forall y, In y xs -> f y = false) /\ mem_prim fuel p a h = Ok (false_a, h) \/
  exists i r h', first_match f xs i /\ mem_prim fuel p a h = Ok (r, h') /\
    list_cells h' r (skipn i cs) (skipn i xs) /\ extends h h' /\ wf h'.
Proof.
  intros W LC L Hp. unfold mem_prim. destruct LC as [(N&->&->)|(c&O&C)].
  - left. split; [intros y []|]. now rewrite (bind_ok _ _ _ _ _ (get_ok _ _ _ N)).
  - rewrite (bind_ok _ _ _ _ _ (get_ok _ _ _ O)). cbv iota beta.
    destruct (mem_loop_ok h p f _ _ _ C fuel L Hp) as [?|(i&c'&F&N&P)]; [now left|].
    right. exists i. do 2 eexists. split; auto. split; [exact P|].
    split; [|split; [now apply extends_halloc|now apply wf_halloc]].
    right. exists c'. split; [cbn; now rewrite upd_same|].
    eapply chain_extends; [now apply extends_halloc|].
    clear -C N. revert i N. generalize dependent (Some c). intros l C.
    induction C; intros i N; [destruct i; discriminate|].
    destruct i; cbn in *; [|auto]. inversion N; subst. econstructor; eauto.
Qed.

(** comparisons leave the heap alone *)
Lemma number_eq_lift h a b r h' : lift (number_eq a b) h = Ok (r, h') -> h' = h.
Proof. unfold lift. destruct (number_eq a b); intros E; inversion E; auto. Qed.
Lemma eq_p_pure a b h r h' : eq_p a b h = Ok (r, h') -> h' = h.
Proof.
  unfold eq_p, ret. destruct (Nat.eqb a b); [intros E; now inversion E|].
  unfold mbind, get. destruct (h_obj h a) as [oa|]; [|discriminate]. destruct (h_obj h b) as [ob|]; [|discriminate].
  destruct (num_vs_float oa ob); [apply number_eq_lift|].
  destruct (negb _); [intros E; now inversion E|].
  destruct oa, ob; try apply number_eq_lift; intros E; now inversion E.
Qed.

(** ** C18: eq? of the cdr with itself *)
Lemma eq_cdr_twice h p cs x y xs : wf h -> list_cells h p cs (x :: y :: xs) ->
  exists q1 h1 q2 h2, cdr p h = Ok (q1, h1) /\ cdr p h1 = Ok (q2, h2) /\ eq_p q1 q2 h2 = Ok (false, h2).
Proof.
  intros W [(N&E&X)|(n&O&C)]; [discriminate|].
  destruct (chain_inv_some _ _ _ _ C) as (k&cs'&xs'&K&D&C'&E1&E2). inversion E2; subst.
  assert (exists m, c_next k = Some m) as (m&Nx) by (inversion C'; eauto). rewrite Nx in C'.
  destruct (chain_inv_some _ _ _ _ C') as (k'&cs2&xs2&K'&D'&C2&E3&E4).
  unfold cdr. rewrite (bind_ok _ _ _ _ _ (get_ok _ _ _ O)). cbv iota beta.
  rewrite (bind_ok _ _ _ _ _ (getc_ok _ _ _ K)). rewrite Nx.
  rewrite (bind_ok _ _ _ _ _ (getc_ok _ _ _ K')). rewrite D'. rewrite alloc_eq.
  set (h1 := halloc h (OList m)).
  assert (W1 : wf h1) by now apply wf_halloc.
  assert (Ex : extends h h1) by now apply extends_halloc.
  assert (O1 : h_obj h1 p = Some (OList n)) by now apply Ex.
  exists (h_next h), h1, (h_next h1), (halloc h1 (OList m)). split; auto. split.
  - rewrite (bind_ok _ _ _ _ _ (get_ok _ _ _ O1)). cbv iota beta.
    rewrite (bind_ok _ _ _ _ _ (getc_ok n h1 k K)). rewrite Nx.
    rewrite (bind_ok _ _ _ _ _ (getc_ok m h1 k' K')). rewrite D'. reflexivity.
  - unfold eq_p. destruct (Nat.eqb_spec (h_next h) (h_next h1)) as [X|_]; [cbn in X; lia|].
    erewrite bind_ok by (apply get_ok; cbn; rewrite upd_other by (cbn; lia); rewrite upd_same; reflexivity).
    erewrite bind_ok by (apply get_ok; cbn; rewrite upd_same; reflexivity). reflexivity.
Qed.

(** ** append with a dotted last argument: only its first element survives *)
Lemma last_dotted_cdr_dotted h a xs d fuel : is_dotted_list h a xs d -> (S (length xs) <= fuel)%nat ->
  last_dotted_cdr fuel a h = Ok (Some d, h).
Proof.
  intros (c&cs&O&N&C) L. unfold last_dotted_cdr.
  rewrite (bind_ok _ _ _ _ _ (get_ok _ _ _ O)). cbv iota beta.
  destruct (last_cell_dotted _ _ _ _ _ C c fuel eq_refl L) as (t&kt&P&K&D&Dt).
  assert (Q : is_dotted_pair fuel c h = Ok (true, h)).
  { unfold is_dotted_pair. inversion C as [|? k ? ? ? K' D' C']; subst; [congruence|].
    rewrite (bind_ok _ _ _ _ _ (getc_ok _ _ _ K')).
    destruct (c_next k) as [n|] eqn:Nx; [|inversion C'].
    rewrite (bind_ok _ _ _ _ _ P). rewrite (bind_ok _ _ _ _ _ (getc_ok _ _ _ K)). now rewrite D. }
  rewrite (bind_ok _ _ _ _ _ Q). rewrite (bind_ok _ _ _ _ _ P). rewrite (bind_ok _ _ _ _ _ (getc_ok _ _ _ K)).
  now rewrite Dt.
Qed.
Lemma append_args_dotted h0 fuel args a y ys d : forall xss h b zs, wf h0 -> Forall2 (is_list h0) args xss ->
  is_dotted_list h0 a (y :: ys) d ->
  (length (concat xss) <= fuel)%nat -> binv h0 h b zs ->
  exists b' h', append_args fuel b true (args ++ [a]) h = Ok (b', h') /\ binv h0 h' b' (zs ++ concat xss ++ [y]).
Proof.
  induction args as [|a0 r IH]; intros xss h b zs W F Dl L B; inversion F; subst; cbn [append_args app concat].
  - unfold append_arg. destruct Dl as (c&cs&O&_&C).
    assert (O' : h_obj h a = Some (OList c)) by (destruct B as (_&(E&_)&_); auto).
    inversion C as [|? k ? ? ? K D C']; subst.
    assert (K' : h_cell h c = Some k) by (destruct B as (_&(_&E&_)&_); auto).
    destruct (b_push_ok _ _ _ _ (c_data k) W B) as (b1&h1&P&B1&_).
    exists b1, h1. split; auto.
    erewrite bind_ok; [reflexivity|].
    rewrite (bind_ok _ _ _ _ _ (get_ok _ _ _ O')). cbv iota beta.
    now rewrite (bind_ok _ _ _ _ _ (getc_ok _ _ _ K')).
  - cbn [concat] in L. rewrite app_length in L.
    replace (match r ++ [a] with [] => true | _ => false end) with false by (destruct r; auto).
    destruct (append_arg_ok h0 h a0 y0 b zs fuel W H1 ltac:(lia) B) as (b1&h1&P&B1).
    rewrite (bind_ok _ _ _ _ _ P).
    destruct (IH _ _ _ _ W H3 Dl ltac:(lia) B1) as (b2&h2&P2&B2).
    exists b2, h2. rewrite <- app_assoc in B2. rewrite <- app_assoc. auto.
Qed.
Lemma chain_to_dchain h l cs t xs n d k :
  chain h l (cs ++ [t]) xs -> h_cell h t = Some k -> h_cell h n = Some (mkCell d None true) ->
  dchain (hsetc h t (mkCell (c_data k) (Some n) (c_dotted k))) l (cs ++ [t] ++ [n]) xs d.
Proof.
  revert l xs. induction cs as [|c cs IH]; intros l xs C K N; cbn [app] in *.
  - destruct (chain_inv_cell _ _ _ _ _ C) as (k0&xs'&->&K0&D&C'&->).
    destruct (chain_inv_nil _ _ _ C') as [Nx ->]. replace k0 with k in * by congruence. clear k0.
    set (k' := mkCell (c_data k) (Some n) (c_dotted k)).
    change (c_data k) with (c_data k'). econstructor.
    + cbn. now rewrite upd_same.
    + auto.
    + cbn. apply (dchain_end _ n (mkCell d None true)); auto.
      cbn. rewrite upd_other; auto. intros ->. rewrite K in N. inversion N. subst k. cbn in D. discriminate.
  - pose proof (chain_nodup _ _ _ _ C) as ND. inversion ND as [|? ? H1 H2]; subst.
    destruct (chain_inv_cell _ _ _ _ _ C) as (k0&xs'&->&K0&D&C'&->).
    econstructor; eauto. cbn. rewrite upd_other; auto.
    intros ->. apply H1. apply in_or_app. right. now left.
Qed.
Lemma append_dotted_ok h args a xss y ys d fuel : wf h -> Forall2 (is_list h) args xss ->
  concat xss <> [] -> is_dotted_list h a (y :: ys) d ->
  (length (concat xss) + length ys + 2 <= fuel)%nat ->
  exists r h', append fuel (args ++ [a]) h = Ok (r, h') /\
    is_dotted_list h' r (concat xss ++ [y]) d /\ extends h h' /\ wf h'.
Proof.
  intros W F Ne Dl L.
  assert (G : append fuel (args ++ [a]) h = append_general fuel (args ++ [a]) h).
  { unfold append. destruct F as [|a1 x1 args xss A1 F]; [exfalso; now apply Ne|]. cbn [app].
    destruct F as [|a2 x2 args xss A2 F].
    - cbn [app]. destruct A1 as (cs&[(N&->&->)|(c&O&C)]); [cbn in Ne; congruence|].
      now rewrite (bind_ok _ _ _ _ _ (get_ok _ _ _ O)).
    - cbn [app]. destruct (args ++ [a]) eqn:E; [now apply app_eq_nil in E|]. reflexivity. }
  rewrite G. unfold append_general. rewrite last_last.
  rewrite (bind_ok _ _ _ _ _ (last_dotted_cdr_dotted _ _ _ _ fuel Dl ltac:(cbn [length]; lia))).
  destruct (append_args_dotted h fuel args a y ys d xss h b_empty [] W F Dl ltac:(lia) (binv_empty _ W)) as (b&h1&P&B).
  rewrite (bind_ok _ _ _ _ _ P). cbn [app] in B.
  destruct B as (W1&E1&cs&C&Fr&T).
  destruct (b_tail b) as [t|].
  2:{ subst cs. destruct (chain_inv_nil _ _ _ C) as [_ Q]. apply app_eq_nil in Q. destruct Q; discriminate. }
  destruct T as (cs'&->).
  destruct (chain_cells_alloc _ _ _ _ t C) as [k K]; [apply in_or_app; right; now left|].
  set (h2 := hallocc h1 (mkCell d None true)).
  assert (E2 : extends h1 h2) by now apply extends_hallocc.
  assert (W2 : wf h2) by now apply wf_hallocc.
  assert (K2 : h_cell h2 t = Some k) by now apply E2.
  set (h3 := hsetc h2 t (mkCell (c_data k) (Some (h_next h1)) (c_dotted k))).
  erewrite bind_ok.
  2:{ rewrite (bind_ok _ _ _ _ _ (allocc_eq _ _)). fold h2.
      rewrite (bind_ok _ _ _ _ _ (getc_ok _ _ _ K2)).
      erewrite bind_ok; [|unfold setc; rewrite K2; reflexivity]. fold h3. reflexivity. }
  assert (W3 : wf h3) by (eapply wf_hsetc; eauto).
  assert (DC : dchain h3 (b_first b) (cs' ++ [t] ++ [h_next h1]) (concat xss ++ [y]) d).
  { apply chain_to_dchain; auto. eapply chain_extends; eauto. cbn. now rewrite upd_same. }
  assert (E3 : extends h h3).
  { apply extends_setc_fresh; [eapply extends_trans; eauto|].
    rewrite Forall_forall in Fr. apply Fr. apply in_or_app. right. now left. }
  destruct (b_first b) as [c|]; [|inversion DC].
  rewrite wrap_some. do 2 eexists. split; [reflexivity|]. split; [|split].
  - exists c. eexists. split; [cbn; now rewrite upd_same|]. split; [now destruct (concat xss)|].
    eapply dchain_extends; [|exact DC]. now apply extends_halloc.
  - eapply extends_trans; eauto. now apply extends_halloc.
  - now apply wf_halloc.
Qed.
