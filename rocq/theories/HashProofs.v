From Coq Require Import Lia.
From Verif Require Import Base NumModel HeapModel EqModel ListModel ListSpec ListProofs ListProofs2 EqSpec EqProofs
  AlistProofs HashModel HashSpec.

Definition ceqb (a b : ckey) : bool := if ckey_eq_dec a b then true else false.
Lemma ceqb_eq a b : ceqb a b = true <-> a = b.
Proof. unfold ceqb. destruct (ckey_eq_dec a b); split; congruence. Qed.

Scheme hrep_mind := Minimality for hrep Sort Prop with hchain_mind := Minimality for hchain Sort Prop.
Combined Scheme hrep_hchain_ind from hrep_mind, hchain_mind.

(** hash and comparison depend on the canonical key only *)
Lemma hash_list_ok pa h : forall x fuel l acc, hchain h l x -> (hsize x <= fuel)%nat ->
  hash_list fuel pa acc l h = Ok (hash_hkey pa x acc, h).
Proof.
  induction x as [| | | | |a IHa d IHd]; intros fuel l acc C L; try (inversion C; fail).
  - inversion C; subst. destruct fuel; reflexivity.
  - inversion C as [|c k x d' K D R C']; subst. cbn [hsize] in L. destruct fuel; [lia|]. cbn [hash_list hash_hkey].
    rewrite (bind_ok _ _ _ _ _ (getc_ok _ _ _ K)).
    remember (c_data k) as dk eqn:Edk. clear Edk.
    inversion R as [a0 s O Z|a0 s O Z|a0 z O|b O|O|a0 c0 x0 d0 O C0]; subst; rewrite (bind_ok _ _ _ _ _ (get_ok _ _ _ O)).
    + erewrite bind_ok; [|reflexivity]. apply IHd; auto. cbn in L; lia.
    + erewrite bind_ok; [|reflexivity]. apply IHd; auto. cbn in L; lia.
    + erewrite bind_ok; [|reflexivity]. apply IHd; auto. cbn in L; lia.
    + erewrite bind_ok; [|reflexivity]. apply IHd; auto. cbn in L; lia.
    + erewrite bind_ok; [|reflexivity]. apply IHd; auto. cbn in L; lia.
    + erewrite bind_ok; [|apply IHa; eauto; lia]. apply IHd; auto. lia.
Qed.
Lemma hash_code_ok fam fuel pa h a c : key_in fam h a c -> (csize c <= fuel)%nat ->
  hash_code fam fuel pa a h = Ok (hash_ck fam pa h c, h).
Proof.
  intros K L.
  assert (HE : forall o, h_obj h a = Some o -> hash_eq pa a h = Ok (match o with OSym s => hash_bytes s | _ => u64 (pa a) end, h)).
  { intros o O. unfold hash_eq. rewrite (bind_ok _ _ _ _ _ (get_ok _ _ _ O)). destruct o; reflexivity. }
  destruct fam; cbn [hash_code key_in] in *.
  - destruct K as (o&O&<-). rewrite (HE o O). destruct o; cbn; rewrite ?O; reflexivity.
  - destruct K as (o&O&<-). unfold hash_eqv. rewrite (bind_ok _ _ _ _ _ (get_ok _ _ _ O)). destruct o; cbn; rewrite ?O; try reflexivity; exact (HE _ O).
  - destruct K as (x&R&->). unfold hash_equal.
    inversion R as [a0 s O Z|a0 s O Z|a0 z O|b O|O|a0 c0 x0 d0 O C0]; subst; rewrite (bind_ok _ _ _ _ _ (get_ok _ _ _ O)); try reflexivity.
    + rewrite (HE _ O). reflexivity.
    + rewrite (HE _ O). reflexivity.
    + cbn [hash_ck csize] in *. now apply hash_list_ok.
Qed.
Definition heqb (a b : hkey) : bool := if hkey_eq_dec a b then true else false.
Lemma heqb_eq a b : heqb a b = true <-> a = b.
Proof. unfold heqb. destruct (hkey_eq_dec a b); split; congruence. Qed.
Lemma ok_bool (x y : bool) (h : heap) (P : Prop) : (x = true <-> P) -> (y = true <-> P) -> Ok (x, h) = Ok (y, h).
Proof. intros A B. do 2 f_equal. apply eq_true_iff_eq. tauto. Qed.
Lemma hchain_nil h l : hchain h l HNil -> l = None.
Proof. intros C. now inversion C. Qed.
Lemma legacy_hkey h : forall x fuel,
  (forall a b y, hrep h a x -> hrep h b y -> (hsize x <= fuel)%nat -> legacy_eq fuel a b h = Ok (heqb x y, h)) /\
  (forall l1 l2 y, hchain h l1 x -> hchain h l2 y -> (hsize x <= fuel)%nat -> legacy_list_eq fuel l1 l2 h = Ok (heqb x y, h)).
Proof.
  assert (At : forall x fuel a b y, (forall u v, x <> HCons u v) -> hrep h a x -> hrep h b y -> (hsize x <= fuel)%nat -> legacy_eq fuel a b h = Ok (heqb x y, h)).
  { intros x fuel a b y NC Ra Rb L. destruct fuel; [destruct x; cbn in L; lia|]. cbn [legacy_eq].
    inversion Ra as [a0 s O Z|a0 s O Z|a0 z O|b1 O|O|a0 c0 x0 d0 O C0]; subst;
    inversion Rb as [a2 s2 O2 Z2|a2 s2 O2 Z2|a2 z2 O2|b2 O2|O2|a2 c2 x2 d2 O2 C2]; subst;
      rewrite (bind_ok _ _ _ _ _ (get_ok _ _ _ O)), (bind_ok _ _ _ _ _ (get_ok _ _ _ O2)); try (exfalso; eapply NC; reflexivity);
      cbn -[sym_eq str_eq heqb]; unfold ret;
      try (eapply ok_bool with (P := False); [split; [discriminate|tauto]|rewrite heqb_eq; split; [discriminate|tauto]]).
    - apply ok_bool with (P := s = s2); [now apply sym_eq_spec|rewrite heqb_eq; split; congruence].
    - apply ok_bool with (P := s = s2); [now apply str_eq_spec|rewrite heqb_eq; split; congruence].
    - apply ok_bool with (P := z = z2); [now apply Z.eqb_eq|rewrite heqb_eq; split; congruence].
    - apply ok_bool with (P := b1 = b2); [now apply eqb_true_iff|rewrite heqb_eq; split; congruence].
    - apply ok_bool with (P := True); [tauto|rewrite heqb_eq; tauto]. }
  induction x as [s|s|z|b| |u IHu d IHd]; intros fuel; (split; [try (intros; apply At; auto; congruence)|]); try (intros l1 l2 y C; inversion C; fail).
  - intros l1 l2 y C1 C2 L. inversion C1; subst. destruct fuel; [cbn in L; lia|]. cbn [legacy_list_eq].
    inversion C2; subst; unfold ret; [apply ok_bool with (P := True); [tauto|rewrite heqb_eq; tauto]|].
    apply ok_bool with (P := False); [split; [discriminate|tauto]|rewrite heqb_eq; split; [discriminate|tauto]].
  - intros a b y Ra Rb L. destruct fuel; [cbn in L; lia|].
    inversion Ra as [| | | | |a0 c0 x0 d0 O C0]; subst.
    assert (Hl : forall l1 l2 y, hchain h l1 (HCons u d) -> hchain h l2 y -> (hsize u + hsize d + 1 <= fuel)%nat -> legacy_list_eq fuel l1 l2 h = Ok (heqb (HCons u d) y, h)).
    { clear -IHu IHd. intros l1 l2 y C1 C2 L. inversion C1 as [|c k x e K D R C]; subst. destruct fuel; [lia|]. cbn [legacy_list_eq].
      inversion C2 as [|c2 k2 x2 e2 K2 D2 R2 C3]; subst.
      - unfold ret. apply ok_bool with (P := False); [split; [discriminate|tauto]|rewrite heqb_eq; split; [discriminate|tauto]].
      - rewrite (bind_ok _ _ _ _ _ (getc_ok _ _ _ K)), (bind_ok _ _ _ _ _ (getc_ok _ _ _ K2)).
        rewrite (bind_ok _ _ _ _ _ (proj1 (IHu fuel) _ _ _ R R2 ltac:(lia))).
        destruct (heqb u x2) eqn:E; cbn [negb].
        + rewrite (proj2 (IHd fuel) _ _ _ C C3) by lia. apply heqb_eq in E. subst.
          apply ok_bool with (P := d = e2); [apply heqb_eq|]. rewrite heqb_eq. split; congruence.
        + unfold ret. apply ok_bool with (P := False); [split; [discriminate|tauto]|].
          rewrite heqb_eq. split; [|tauto]. intros Q. inversion Q; subst. assert (heqb x2 x2 = true) by now apply heqb_eq. congruence. }
    cbn [legacy_eq]. rewrite (bind_ok _ _ _ _ _ (get_ok _ _ _ O)).
    inversion Rb as [a2 s2 O2 Z2|a2 s2 O2 Z2|a2 z2 O2|b2 O2|O2|a2 c2 x2 d2 O2 C2]; subst;
      rewrite (bind_ok _ _ _ _ _ (get_ok _ _ _ O2)); cbn -[sym_eq str_eq heqb legacy_list_eq]; unfold ret;
      try (eapply ok_bool with (P := False); [split; [discriminate|tauto]|rewrite heqb_eq; split; [discriminate|tauto]]).
    apply Hl; auto. cbn in L. lia.
  - intros l1 l2 y C1 C2 L. inversion C1 as [|c k x e K D R C]; subst. destruct fuel; [cbn in L; lia|]. cbn [legacy_list_eq].
    cbn in L.
    inversion C2 as [|c2 k2 x2 e2 K2 D2 R2 C3]; subst.
    + unfold ret. apply ok_bool with (P := False); [split; [discriminate|tauto]|rewrite heqb_eq; split; [discriminate|tauto]].
    + rewrite (bind_ok _ _ _ _ _ (getc_ok _ _ _ K)), (bind_ok _ _ _ _ _ (getc_ok _ _ _ K2)).
      rewrite (bind_ok _ _ _ _ _ (proj1 (IHu fuel) _ _ _ R R2 ltac:(lia))).
      destruct (heqb u x2) eqn:E; cbn [negb].
      * rewrite (proj2 (IHd fuel) _ _ _ C C3) by lia. apply heqb_eq in E. subst.
        apply ok_bool with (P := d = e2); [apply heqb_eq|]. rewrite heqb_eq. split; congruence.
      * unfold ret. apply ok_bool with (P := False); [split; [discriminate|tauto]|].
        rewrite heqb_eq. split; [|tauto]. intros Q. inversion Q; subst. assert (heqb x2 x2 = true) by now apply heqb_eq. congruence.
Qed.
Lemma cmp_ok fam fuel h a b ca cb : key_in fam h a ca -> key_in fam h b cb -> (csize ca <= fuel)%nat ->
  cmp fam fuel a b h = Ok (ceqb ca cb, h).
Proof.
  intros Ka Kb L.
  destruct fam; cbn [cmp key_in] in *.
  - destruct Ka as (oa&Oa&<-), Kb as (ob&Ob&<-).
    assert (Np : a = b -> oa = ob) by (intros ->; congruence).
    unfold cmp_eq. rewrite (bind_ok _ _ _ _ _ (get_ok _ _ _ Oa)), (bind_ok _ _ _ _ _ (get_ok _ _ _ Ob)).
    destruct oa, ob; unfold ret; (eapply ok_bool; [apply Nat.eqb_eq || apply zlist_eqb_spec|]); rewrite ceqb_eq; cbn; split; intros H; try congruence;
      try (specialize (Np H); congruence).
  - destruct Ka as (oa&Oa&<-), Kb as (ob&Ob&<-).
    assert (Np : a = b -> oa = ob) by (intros ->; congruence).
    unfold cmp_eqv. rewrite (bind_ok _ _ _ _ _ (get_ok _ _ _ Oa)), (bind_ok _ _ _ _ _ (get_ok _ _ _ Ob)).
    destruct oa, ob; unfold ret; (eapply ok_bool; [apply Nat.eqb_eq || apply Z.eqb_eq || apply eqb_true_iff|]); rewrite ceqb_eq; cbn; split; intros H; try congruence;
      try (specialize (Np H); congruence).
  - destruct Ka as (x&Ra&->), Kb as (y&Rb&->). rewrite (proj1 (legacy_hkey h x fuel) _ _ _ Ra Rb L).
    apply ok_bool with (P := x = y); [apply heqb_eq|]. rewrite ceqb_eq. split; congruence.
Qed.

(** ** frames: only the table object and dotted cells may change *)
Definition frame (t : addr) (h h' : heap) : Prop :=
  (forall a o, a <> t -> h_obj h a = Some o -> h_obj h' a = Some o) /\
  (exists b s, h_obj h t = Some (OHash b s)) /\ (exists b s, h_obj h' t = Some (OHash b s)) /\
  (forall c k, h_cell h c = Some k -> c_dotted k = false -> h_cell h' c = Some k).
Lemma frame_trans t h1 h2 h3 : frame t h1 h2 -> frame t h2 h3 -> frame t h1 h3.
Proof. intros (A1&A2&A3&A4) (B1&B2&B3&B4). split; [|split; [|split]]; auto. Qed.
Lemma frame_hrep t h h' : frame t h h' ->
  (forall a x, hrep h a x -> hrep h' a x) /\ (forall l x, hchain h l x -> hchain h' l x).
Proof.
  intros (A1&(b&s&A2)&A3&A4). apply hrep_hchain_ind; intros.
  - constructor; auto. apply A1; auto. congruence.
  - constructor; auto. apply A1; auto. congruence.
  - constructor; auto. apply A1; auto. congruence.
  - constructor; auto. apply A1; auto. congruence.
  - constructor; auto. apply A1; auto. congruence.
  - econstructor; eauto. apply A1; eauto. congruence.
  - constructor.
  - econstructor; eauto.
Qed.
Lemma frame_key fam t h h' a c : frame t h h' -> key_in fam h a c -> key_in fam h' a c.
Proof.
  intros F K. destruct fam; cbn in *.
  1,2: destruct F as (A1&(b&s&A2)&(b'&s'&A3)&A4); destruct K as (o&O&C); destruct (Nat.eq_dec a t) as [->|N];
    [exists (OHash b' s'); assert (o = OHash b s) by congruence; subst o; split; auto|exists o; auto].
  destruct K as (x&R&->). exists x. split; auto. now apply (frame_hrep t h h').
Qed.
Lemma frame_hash fam pa t h h' a c : frame t h h' -> key_in fam h a c -> hash_ck fam pa h' c = hash_ck fam pa h c.
Proof.
  intros (A1&(b&s&A2)&(b'&s'&A3)&A4) K. destruct c; auto. cbn.
  assert (Q : a0 = a /\ exists o, h_obj h a = Some o).
  { destruct fam; cbn in K; [destruct K as (o&O&C); split; [destruct o; cbn in C; congruence|eauto]..|].
    destruct K as (x&_&C). discriminate. }
  destruct Q as (->&o&O). destruct (Nat.eq_dec a t) as [->|N].
  - now rewrite A2, A3.
  - now rewrite O, (A1 _ _ N O).
Qed.

(** ** entries *)
Lemma find_entry_ok fam fuel h k ck es : key_in fam h k ck -> (csize ck <= fuel)%nat -> (forall e, In e es -> entry_in fam h e) ->
  find_entry fam fuel k (map e_cell es) h =
  Ok (option_map e_cell (find (fun e => ceqb ck (e_ckey e)) es), h).
Proof.
  intros Kk Lk. induction es as [|e es IH]; intros He; [reflexivity|]. cbn [map find_entry find].
  destruct (He e (or_introl eq_refl)) as (E1&E2&E3).
  rewrite (bind_ok _ _ _ _ _ (getc_ok _ _ _ E1)). cbn [c_data].
  rewrite (bind_ok _ _ _ _ _ (cmp_ok fam fuel h k (e_key e) ck (e_ckey e) Kk E3 Lk)).
  destruct (ceqb ck (e_ckey e)); [reflexivity|]. apply IH. intros; apply He; now right.
Qed.
Lemma nth_map_nil {A B} (f : A -> B) ess i : nth i (map (map f) ess) [] = map f (nth i ess []).
Proof. change (@nil B) with (map f []). apply map_nth. Qed.
Lemma in_nth_concat {A} (ess : list (list A)) i e : In e (nth i ess []) -> In e (concat ess).
Proof.
  revert i. induction ess as [|x r IH]; intros [|i]; cbn; try tauto; intros H; apply in_or_app; eauto.
Qed.
Lemma in_concat_nth {A} (ess : list (list A)) e : In e (concat ess) -> exists i, (i < length ess)%nat /\ In e (nth i ess []).
Proof.
  induction ess as [|x r IH]; cbn; [tauto|]. intros H. apply in_app_or in H. destruct H as [H|H].
  - exists 0%nat. split; [lia|auto].
  - destruct (IH H) as (i&L&I). exists (S i). split; [lia|auto].
Qed.
Definition bidx (fam : family) (pa : addr -> Z) (h : heap) (c : ckey) (n : nat) : nat :=
  Z.to_nat (hash_ck fam pa h c mod Z.of_nat n).
Lemma bidx_lt fam pa h c n : (0 < n)%nat -> (bidx fam pa h c n < n)%nat.
Proof. intros L. unfold bidx. pose proof (Z.mod_pos_bound (hash_ck fam pa h c) (Z.of_nat n)). lia. Qed.
Lemma locate_ok fam fuel pa h t k ck ess sz : h_obj h t = Some (OHash (map (map e_cell) ess) sz) -> ess <> [] ->
  key_in fam h k ck -> (csize ck <= fuel)%nat ->
  locate fam fuel pa t k h = Ok ((map (map e_cell) ess, sz, bidx fam pa h ck (length ess)), h).
Proof.
  intros O N K Lk. unfold locate. rewrite (bind_ok _ _ _ _ _ (get_ok _ _ _ O)). cbv iota beta.
  rewrite (bind_ok _ _ _ _ _ (hash_code_ok fam fuel pa h k ck K Lk)). rewrite map_length.
  destruct ess; [congruence|]. reflexivity.
Qed.
(* an entry with the right key is in the bucket that is searched *)
Lemma find_bucket fam pa h ess ck : ess <> [] ->
  (forall i e, In e (nth i ess []) -> Z.of_nat i = hash_ck fam pa h (e_ckey e) mod Z.of_nat (length ess)) ->
  NoDup (map e_ckey (concat ess)) ->
  match find (fun e => ceqb ck (e_ckey e)) (nth (bidx fam pa h ck (length ess)) ess []) with
  | Some e => In e (concat ess) /\ e_ckey e = ck
  | None => forall e, In e (concat ess) -> e_ckey e <> ck
  end.
Proof.
  intros N Hb ND. destruct (find _ _) as [e|] eqn:F.
  - destruct (find_some _ _ F) as (I&E). apply ceqb_eq in E. split; auto. eapply in_nth_concat; eauto.
  - intros e I E. destruct (in_concat_nth _ _ I) as (i&L&Ii). pose proof (Hb _ _ Ii) as Hi.
    assert (bidx fam pa h ck (length ess) = i) by (unfold bidx; rewrite <- E, <- Hi; lia).
    subst i. pose proof (find_none _ _ F _ Ii) as X. cbn in X. assert (ceqb ck (e_ckey e) = true) by (apply ceqb_eq; auto). congruence.
Qed.

(** ** the invariant with its pieces named *)
Definition tinv (fam : family) (pa : addr -> Z) (h : heap) (t : addr) (ess : list (list entry)) (sz : Z) : Prop :=
    h_obj h t = Some (OHash (map (map e_cell) ess) sz) /\
    sz = Z.of_nat (length (concat ess)) /\
    ess <> [] /\
    (forall i e, In e (nth i ess []) -> Z.of_nat i = hash_ck fam pa h (e_ckey e) mod Z.of_nat (length ess)) /\
    (forall e, In e (concat ess) -> entry_in fam h e) /\
    NoDup (map e_ckey (concat ess)) /\
    NoDup (cells_of (concat ess)).
Definition mrep (ess : list (list entry)) (m : fmap) : Prop :=
  forall c v, m c = Some v <-> exists e, In e (concat ess) /\ e_ckey e = c /\ e_val e = v.

(* lookup of a canonical key *)
Lemma mrep_find ess m ck e : mrep ess m -> In e (concat ess) -> e_ckey e = ck -> m ck = Some (e_val e).
Proof. intros R I E. apply R. eauto. Qed.
Lemma mrep_none ess m ck : mrep ess m -> (forall e, In e (concat ess) -> e_ckey e <> ck) -> m ck = None.
Proof.
  intros R N. destruct (m ck) as [v|] eqn:E; auto. apply R in E. destruct E as (e&I&E&_). exfalso. eapply N; eauto.
Qed.

(** *** update of a value *)
Definition setv (ck : ckey) (v : addr) (e : entry) : entry :=
  if ceqb ck (e_ckey e) then mkE (e_cell e) (e_vcell e) (e_key e) (e_ckey e) v else e.
Lemma setv_cell ck v e : e_cell (setv ck v e) = e_cell e.
Proof. unfold setv. now destruct (ceqb _ _). Qed.
Lemma setv_vcell ck v e : e_vcell (setv ck v e) = e_vcell e.
Proof. unfold setv. now destruct (ceqb _ _). Qed.
Lemma setv_ckey ck v e : e_ckey (setv ck v e) = e_ckey e.
Proof. unfold setv. now destruct (ceqb _ _). Qed.
Lemma setv_key ck v e : e_key (setv ck v e) = e_key e.
Proof. unfold setv. now destruct (ceqb _ _). Qed.
Lemma concat_map_map {A B} (f : A -> B) ess : concat (map (map f) ess) = map f (concat ess).
Proof. symmetry. apply concat_map. Qed.
Lemma map_ext_cell ck v ess : map (map e_cell) (map (map (setv ck v)) ess) = map (map e_cell) ess.
Proof.
  rewrite map_map. apply map_ext. intros l. rewrite map_map. apply map_ext. intros. apply setv_cell.
Qed.
Lemma cells_of_setv ck v es : cells_of (map (setv ck v) es) = cells_of es.
Proof.
  unfold cells_of. rewrite !map_map. f_equal; apply map_ext; intros; [apply setv_cell|apply setv_vcell].
Qed.
Lemma ckeys_setv ck v es : map e_ckey (map (setv ck v) es) = map e_ckey es.
Proof. rewrite map_map. apply map_ext. intros. apply setv_ckey. Qed.
Lemma NoDup_app_l {A} (l1 l2 : list A) : NoDup (l1 ++ l2) -> NoDup l1.
Proof. induction l1; cbn; intros H; constructor; inversion H; subst; auto. intros I. apply H2. apply in_or_app; auto. Qed.
Lemma NoDup_app_r {A} (l1 l2 : list A) : NoDup (l1 ++ l2) -> NoDup l2.
Proof. induction l1; cbn; intros H; auto. inversion H; auto. Qed.
Lemma NoDup_app_disj {A} (l1 l2 : list A) x : NoDup (l1 ++ l2) -> In x l1 -> In x l2 -> False.
Proof. induction l1; cbn; intros H I J; [tauto|]. inversion H; subst. destruct I as [->|I]; eauto. apply H2. apply in_or_app; auto. Qed.
Lemma NoDup_map_inj {A B} (f : A -> B) l x y : NoDup (map f l) -> In x l -> In y l -> f x = f y -> x = y.
Proof.
  induction l; cbn; intros H I J E; [tauto|]. inversion H; subst.
  destruct I as [->|I], J as [->|J]; auto.
  - exfalso. apply H2. rewrite E. now apply in_map.
  - exfalso. apply H2. rewrite <- E. now apply in_map.
Qed.
Lemma update_ok fam pa h t ess sz m e v : wf h -> tinv fam pa h t ess sz -> mrep ess m -> In e (concat ess) ->
  exists h', update_entry (e_cell e) v h = Ok (tt, h') /\ wf h' /\ frame t h h' /\
    tinv fam pa h' t (map (map (setv (e_ckey e) v)) ess) sz /\
    mrep (map (map (setv (e_ckey e) v)) ess) (m_set m (e_ckey e) v).
Proof.
  intros W (O&Sz&N&Hb&He&Nk&Nc) R I. destruct (He e I) as (E1&E2&E3).
  unfold update_entry. rewrite (bind_ok _ _ _ _ _ (getc_ok _ _ _ E1)). cbn [c_next].
  rewrite (bind_ok _ _ _ _ _ (getc_ok _ _ _ E2)). cbn [c_next]. unfold setc. rewrite E2.
  fold (hsetc h (e_vcell e) (mkCell v None true)). set (h' := hsetc h _ _).
  assert (F : frame t h h').
  { split; [auto|split; [eauto|split; [eauto|]]]. intros c k0 Kc Dc. cbn. rewrite upd_other; auto. intros ->. rewrite E2 in Kc. inversion Kc; subst. discriminate. }
  exists h'. split; [reflexivity|]. split; [eapply wf_hsetc; eauto|]. split; auto. split.
  - split; [cbn; now rewrite map_ext_cell|]. rewrite concat_map_map, map_length.
    split; auto. split; [destruct ess; [congruence|discriminate]|]. rewrite map_length. split.
    { intros i e' I'. change (@nil entry) with (map (setv (e_ckey e) v) []) in I'. rewrite map_nth in I'.
      apply in_map_iff in I'. destruct I' as (e0&<-&I0). rewrite setv_ckey. now apply Hb. }
    split; [|rewrite ckeys_setv, cells_of_setv; auto].
    intros e' I'. apply in_map_iff in I'. destruct I' as (e0&<-&I0).
    destruct (He e0 I0) as (A1&A2&A3). unfold entry_in. rewrite setv_cell, setv_vcell, setv_ckey, setv_key.
    assert (Dis : e_cell e0 <> e_vcell e).
    { intros Q. eapply NoDup_app_disj; [exact Nc|apply in_map; exact I0|rewrite Q; apply in_map; exact I]. }
    split; [cbn; rewrite upd_other; auto|]. split; [|eapply frame_key; eauto].
    destruct (Nat.eq_dec (e_vcell e0) (e_vcell e)) as [Q|Q].
    + assert (e0 = e) by (eapply NoDup_map_inj; [eapply NoDup_app_r; exact Nc| | |]; eauto). subst e0.
      cbn. rewrite upd_same. unfold setv. rewrite (proj2 (ceqb_eq _ _) eq_refl). reflexivity.
    + cbn. rewrite upd_other by auto. unfold setv. destruct (ceqb (e_ckey e) (e_ckey e0)) eqn:Ce; [|exact A2].
      apply ceqb_eq in Ce. assert (e = e0) by (eapply NoDup_map_inj; [exact Nk| | |]; eauto). congruence.
  - intros c w. rewrite concat_map_map. unfold m_set. destruct (ckey_eq_dec c (e_ckey e)) as [->|Nq].
    + split.
      * intros Q. inversion Q; subst w. exists (setv (e_ckey e) v e). split; [now apply in_map|]. rewrite setv_ckey. split; auto.
        unfold setv. now rewrite (proj2 (ceqb_eq _ _) eq_refl).
      * intros (e'&I'&C'&V'). apply in_map_iff in I'. destruct I' as (e0&<-&I0). rewrite setv_ckey in C'.
        unfold setv in V'. rewrite (proj2 (ceqb_eq _ _)) in V' by auto. cbn in V'. congruence.
    + rewrite (R c w). split.
      * intros (e0&I0&C0&V0). exists (setv (e_ckey e) v e0). split; [now apply in_map|]. rewrite setv_ckey. split; auto.
        unfold setv. destruct (ceqb _ _) eqn:Q; auto. apply ceqb_eq in Q. congruence.
      * intros (e'&I'&C'&V'). apply in_map_iff in I'. destruct I' as (e0&<-&I0). rewrite setv_ckey in C'.
        exists e0. split; auto. split; auto. unfold setv in V'. destruct (ceqb _ _) eqn:Q; auto. apply ceqb_eq in Q. congruence.
Qed.

(** *** insertion *)
Lemma set_nth_length {A} n (x : A) l : length (set_nth n x l) = length l.
Proof. revert n. induction l; intros [|n]; cbn; auto. Qed.
Lemma set_nth_nth {A} n (x : A) l d i : (n < length l)%nat ->
  nth i (set_nth n x l) d = if Nat.eqb i n then x else nth i l d.
Proof.
  revert n i. induction l as [|y l IH]; intros n i L; [cbn in L; lia|]. destruct n, i; cbn in *; auto.
  apply IH. lia.
Qed.
Lemma set_nth_map {A B} (f : A -> B) n x l : map f (set_nth n x l) = set_nth n (f x) (map f l).
Proof. revert n. induction l; intros [|n]; cbn; auto. now rewrite IHl. Qed.
Lemma set_nth_split {A} n (x : list A) (l : list (list A)) : (n < length l)%nat ->
  exists l1 l2, l = l1 ++ nth n l [] :: l2 /\ set_nth n x l = l1 ++ x :: l2.
Proof.
  revert n. induction l as [|y l IH]; intros n L; [cbn in L; lia|]. destruct n.
  - exists [], l. auto.
  - destruct (IH n) as (l1&l2&E1&E2); [cbn in L; lia|]. exists (y :: l1), l2. cbn. rewrite E2. split; [f_equal; auto|auto].
Qed.
From Coq Require Import Permutation.
Lemma concat_insert (ess : list (list entry)) n e : (n < length ess)%nat ->
  Permutation (concat (set_nth n (e :: nth n ess []) ess)) (e :: concat ess).
Proof.
  intros L. destruct (set_nth_split n (e :: nth n ess []) ess L) as (l1&l2&E1&E2). rewrite E2.
  rewrite E1 at 2. rewrite !concat_app. cbn. symmetry. rewrite <- Permutation_middle. reflexivity.
Qed.
Lemma cells_perm es es' : Permutation es es' -> Permutation (cells_of es) (cells_of es').
Proof. intros P. unfold cells_of. apply Permutation_app; now apply Permutation_map. Qed.
Lemma insert_ok fam pa h t ess sz m k ck v : wf h -> tinv fam pa h t ess sz -> mrep ess m ->
  key_in fam h k ck -> (forall e, In e (concat ess) -> e_ckey e <> ck) ->
  let idx := bidx fam pa h ck (length ess) in
  exists r h' ess', insert_entry t (map (map e_cell) ess) sz idx k v h = Ok (r, h') /\ wf h' /\ frame t h h' /\
    tinv fam pa h' t ess' (sz + 1) /\ mrep ess' (m_set m ck v) /\
    exists e n, h_obj h' r = Some (OList e) /\ h_cell h' e = Some (mkCell k (Some n) false) /\
      h_cell h' n = Some (mkCell v None true) /\ r <> false_a.
Proof.
  intros W T R K Ne idx. pose proof T as (O&Sz&N&Hb&He&Nk&Nc).
  assert (Li : (idx < length ess)%nat) by (apply bidx_lt; destruct ess; [congruence|cbn; lia]).
  unfold insert_entry. rewrite (bind_ok _ _ _ _ _ (allocc_eq _ _)).
  set (n := h_next h). set (h1 := hallocc h _). assert (W1 : wf h1) by now apply wf_hallocc.
  rewrite (bind_ok _ _ _ _ _ (allocc_eq _ _)).
  set (ec := h_next h1). set (h2 := hallocc h1 _). assert (W2 : wf h2) by now apply wf_hallocc.
  assert (O2 : h_obj h2 t = Some (OHash (map (map e_cell) ess) sz)) by exact O.
  unfold seto at 1. unfold mbind at 1. rewrite O2. rewrite wrap_some.
  set (h3 := mkHeap _ _ _).
  assert (Tl : (t < h_next h)%nat) by (eapply wf_obj_lt; eauto).
  assert (N4 : true_a <> t /\ false_a <> t /\ nil_a <> t /\ none_a <> t).
  { destruct W as (_&A0&A1&A2&A3). repeat split; intros <-; congruence. }
  assert (W3 : wf h3).
  { destruct N4 as (N1&N2&N3&N0). destruct W2 as (F&A0&A1&A2&A3). split; [|repeat split]; cbn.
    - intros a Ha. cbn in Ha. rewrite upd_other by lia. apply F. exact Ha.
    - rewrite upd_other; auto.
    - rewrite upd_other; auto.
    - rewrite upd_other; auto.
    - rewrite upd_other; auto. }
  set (enew := mkE ec n k ck v). set (ess' := set_nth idx (enew :: nth idx ess []) ess).
  set (h4 := halloc h3 (OList ec)).
  assert (X : h_obj h4 t = Some (OHash (map (map e_cell) ess') (sz + 1))).
  { cbn. rewrite upd_other by lia. rewrite upd_same. unfold ess'. rewrite set_nth_map. rewrite nth_map_nil. reflexivity. }
  assert (F : frame t h h4).
  { split; [|split; [eauto|split; [eauto|]]].
    - intros a o Na Oa. cbn. rewrite upd_other, upd_other; auto. apply (wf_obj_lt _ _ _ W) in Oa. lia.
    - intros c x Hc _. cbn. pose proof (wf_cell_lt _ _ _ W Hc). rewrite upd_other, upd_other; auto; lia. }
  assert (C4 : forall c x, h_cell h c = Some x -> h_cell h4 c = Some x).
  { intros c x Hc. cbn. pose proof (wf_cell_lt _ _ _ W Hc). rewrite upd_other, upd_other; auto; lia. }
  assert (P : Permutation (concat ess') (enew :: concat ess)) by now apply concat_insert.
  assert (Cn : h_cell h4 ec = Some (mkCell k (Some n) false)) by (cbn; now rewrite upd_same).
  assert (Cv : h_cell h4 n = Some (mkCell v None true)) by (cbn; rewrite upd_other by lia; now rewrite upd_same).
  assert (Hin : forall e, In e (concat ess') <-> e = enew \/ In e (concat ess)).
  { intros e. split; intros I; [apply (Permutation_in _ P) in I; destruct I; auto|].
    apply (Permutation_in _ (Permutation_sym P)). destruct I; [left; auto|now right]. }
  do 2 eexists. exists ess'. split; [reflexivity|]. split; [now apply wf_halloc|]. split; [exact F|]. split; [|split].
  - split; [exact X|]. split; [rewrite (Permutation_length P); cbn [length]; lia|].
    assert (Le : length ess' = length ess) by apply set_nth_length.
    split; [intros Q; rewrite Q in Le; destruct ess; cbn in Le; congruence|]. rewrite Le. split; [|split; [|split]].
    + intros i e I. unfold ess' in I. rewrite set_nth_nth in I by auto. destruct (Nat.eqb_spec i idx) as [->|Q].
      * destruct I as [<-|I].
        -- unfold enew; cbn [e_ckey]. rewrite (frame_hash fam pa t h h4 k ck F K). unfold idx, bidx.
           rewrite Z2Nat.id; auto. apply Z.mod_pos_bound. destruct ess; [congruence|cbn; lia].
        -- rewrite (frame_hash fam pa t h h4 (e_key e) (e_ckey e) F); [now apply Hb|]. apply He. eapply in_nth_concat; eauto.
      * rewrite (frame_hash fam pa t h h4 (e_key e) (e_ckey e) F); [now apply Hb|]. apply He. eapply in_nth_concat; eauto.
    + intros e I. apply Hin in I. destruct I as [->|I].
      * split; [exact Cn|]. split; [exact Cv|]. cbn. eapply frame_key; eauto.
      * destruct (He e I) as (A1&A2&A3). split; [now apply C4|]. split; [now apply C4|]. eapply frame_key; eauto.
    + eapply Permutation_NoDup; [apply Permutation_sym, Permutation_map; exact P|]. cbn. constructor; auto.
      intros I. apply in_map_iff in I. destruct I as (e&Q&I). eapply Ne; eauto.
    + eapply Permutation_NoDup; [apply Permutation_sym, cells_perm; exact P|].
      unfold cells_of. cbn [map app e_cell e_vcell enew].
      assert (Al : forall c, In c (cells_of (concat ess)) -> (c < h_next h)%nat).
      { intros c I. apply in_app_or in I. destruct I as [I|I]; apply in_map_iff in I; destruct I as (e&<-&I); destruct (He e I) as (A1&A2&_); eapply wf_cell_lt; eauto. }
      constructor.
      * intros I. apply in_app_or in I. cbn [In] in I.
        assert (ec <> n) by (unfold ec, n; cbn; lia).
        destruct I as [I|[I|I]]; [|now symmetry in I|].
        -- assert (ec < h_next h)%nat by (apply Al; apply in_or_app; auto). unfold ec in *. cbn in *. lia.
        -- assert (ec < h_next h)%nat by (apply Al; apply in_or_app; auto). unfold ec in *. cbn in *. lia.
      * eapply Permutation_NoDup; [apply Permutation_middle|]. constructor; auto.
        intros I. assert (n < h_next h)%nat by (apply Al; exact I). unfold n in *. lia.
  - intros c w. unfold m_set. destruct (ckey_eq_dec c ck) as [->|Q].
    + split.
      * intros E. inversion E; subst. exists enew. split; [apply Hin; auto|auto].
      * intros (e&I&E1&E2). apply Hin in I. destruct I as [->|I]; [cbn in E2; congruence|]. exfalso. eapply Ne; eauto.
    + rewrite (R c w). split; intros (e&I&E1&E2); exists e.
      * split; [apply Hin; auto|auto].
      * apply Hin in I. destruct I as [->|I]; [cbn in E1; congruence|auto].
  - exists ec, n. split; [cbn; now rewrite upd_same|]. split; auto. split; auto.
    pose proof (wf_next _ W). unfold true_a in *. cbn. unfold false_a. lia.
Qed.

(** *** removal *)
Fixpoint removed (ck : ckey) (es : list entry) : list entry :=
  match es with
  | [] => []
  | e :: r => if ceqb ck (e_ckey e) then r else e :: removed ck r
  end.
Lemma remove_entry_ok fam fuel h k ck es : key_in fam h k ck -> (csize ck <= fuel)%nat -> (forall e, In e es -> entry_in fam h e) ->
  remove_entry fam fuel k (map e_cell es) h =
  Ok (match find (fun e => ceqb ck (e_ckey e)) es with Some _ => Some (map e_cell (removed ck es)) | None => None end, h).
Proof.
  intros Kk Lk. induction es as [|e es IH]; intros He; [reflexivity|]. cbn [map remove_entry find removed].
  destruct (He e (or_introl eq_refl)) as (E1&E2&E3).
  rewrite (bind_ok _ _ _ _ _ (getc_ok _ _ _ E1)). cbn [c_data].
  rewrite (bind_ok _ _ _ _ _ (cmp_ok fam fuel h k (e_key e) ck (e_ckey e) Kk E3 Lk)).
  destruct (ceqb ck (e_ckey e)); [reflexivity|].
  rewrite (bind_ok _ _ _ _ _ (IH (fun e' I => He e' (or_intror I)))).
  destruct (find _ es); reflexivity.
Qed.
Lemma removed_perm ck es e : find (fun e => ceqb ck (e_ckey e)) es = Some e -> Permutation es (e :: removed ck es).
Proof.
  induction es as [|x es IH]; cbn; [discriminate|]. destruct (ceqb ck (e_ckey x)).
  - intros Q. inversion Q; subst. reflexivity.
  - intros Q. rewrite (IH Q) at 1. apply perm_swap.
Qed.
Lemma concat_removed ck (ess : list (list entry)) n e : (n < length ess)%nat ->
  find (fun e => ceqb ck (e_ckey e)) (nth n ess []) = Some e ->
  Permutation (concat ess) (e :: concat (set_nth n (removed ck (nth n ess [])) ess)).
Proof.
  intros L F. destruct (set_nth_split n (removed ck (nth n ess [])) ess L) as (l1&l2&E1&E2). rewrite E2.
  rewrite E1 at 1. rewrite !concat_app. cbn. rewrite (removed_perm ck _ e F) at 1. cbn.
  symmetry. apply Permutation_middle.
Qed.
Lemma remove_ok fam pa h t ess sz m ck e : wf h -> tinv fam pa h t ess sz -> mrep ess m ->
  let idx := bidx fam pa h ck (length ess) in
  find (fun e => ceqb ck (e_ckey e)) (nth idx ess []) = Some e ->
  exists h', seto t (OHash (set_nth idx (map e_cell (removed ck (nth idx ess []))) (map (map e_cell) ess)) (sz - 1)) h = Ok (tt, h') /\
    wf h' /\ frame t h h' /\ tinv fam pa h' t (set_nth idx (removed ck (nth idx ess [])) ess) (sz - 1) /\
    mrep (set_nth idx (removed ck (nth idx ess [])) ess) (m_remove m ck).
Proof.
  intros W T R idx F. pose proof T as (O&Sz&N&Hb&He&Nk&Nc).
  assert (Li : (idx < length ess)%nat) by (apply bidx_lt; destruct ess; [congruence|cbn; lia]).
  destruct (find_some _ _ F) as (Ie&Ee). apply ceqb_eq in Ee.
  unfold seto. rewrite O. set (ess' := set_nth idx _ ess). set (h' := mkHeap _ _ _).
  assert (P : Permutation (concat ess) (e :: concat ess')) by now apply concat_removed.
  assert (Tl : (t < h_next h)%nat) by (eapply wf_obj_lt; eauto).
  assert (X : h_obj h' t = Some (OHash (map (map e_cell) ess') (sz - 1))).
  { cbn. rewrite upd_same. unfold ess'. now rewrite set_nth_map. }
  assert (Fr : frame t h h').
  { split; [|split; [eauto|split; [eauto|auto]]]. intros a o Na Oa. cbn. now rewrite upd_other. }
  assert (W' : wf h').
  { destruct W as (F0&A0&A1&A2&A3). assert (N4 : true_a <> t /\ false_a <> t /\ nil_a <> t /\ none_a <> t) by (repeat split; intros <-; congruence).
    destruct N4 as (N1&N2&N3&N0). split; [|repeat split]; cbn.
    - intros a Ha. rewrite upd_other by lia. now apply F0.
    - rewrite upd_other; auto.
    - rewrite upd_other; auto.
    - rewrite upd_other; auto.
    - rewrite upd_other; auto. }
  assert (Sub : forall x, In x (concat ess') -> In x (concat ess)).
  { intros x I. apply (Permutation_in _ (Permutation_sym P)). now right. }
  pose proof (Permutation_NoDup (Permutation_map e_ckey P) Nk) as Nk'. cbn in Nk'. inversion Nk' as [|? ? Nk1 Nk2]; subst x l.
  exists h'. split; [reflexivity|]. split; auto. split; auto. split.
  - split; [exact X|]. split; [rewrite Sz, (Permutation_length P); cbn [length]; lia|].
    assert (Le : length ess' = length ess) by apply set_nth_length.
    split; [intros Q; rewrite Q in Le; destruct ess; cbn in Le; congruence|]. rewrite Le. split; [|split; [|split; auto]].
    + intros i x I. assert (Ix : In x (concat ess)) by (apply Sub; eapply in_nth_concat; eauto).
      rewrite (frame_hash fam pa t h h' (e_key x) (e_ckey x) Fr); [|apply He; auto].
      unfold ess' in I. rewrite set_nth_nth in I by auto. destruct (Nat.eqb_spec i idx) as [->|Q]; [|now apply Hb].
      apply Hb. apply (Permutation_in _ (Permutation_sym (removed_perm _ _ _ F))). now right.
    + intros x I. destruct (He x (Sub x I)) as (A1&A2&A3). split; [exact A1|]. split; [exact A2|]. eapply frame_key; eauto.
    + pose proof (Permutation_NoDup (cells_perm _ _ P) Nc) as Q. unfold cells_of in Q. cbn in Q.
      inversion Q as [|? ? Q1 Q2]; subst. apply NoDup_remove_1 in Q2. exact Q2.
  - intros c w. unfold m_remove. destruct (ckey_eq_dec c ck) as [->|Q].
    + split; [discriminate|]. intros (x&I&E1&_). exfalso. apply Nk1. rewrite <- Ee, <- E1. now apply in_map.
    + rewrite (R c w). split; intros (x&I&E1&E2); exists x; auto.
      apply (Permutation_in _ P) in I. destruct I as [->|I]; [congruence|auto].
Qed.

Lemma table_tinv fam pa h t m : table fam pa h t m <-> exists ess sz, tinv fam pa h t ess sz /\ mrep ess m.
Proof.
  unfold table, tinv, mrep. split.
  - intros (ess&sz&A&B&C&D&E&F&G&H). exists ess, sz. split; [|assumption]. repeat (split; [assumption|]). assumption.
  - intros (ess&sz&(A&B&C&D&E&F&G)&H). exists ess, sz. repeat (split; [assumption|]). assumption.
Qed.

(** ** one operation *)
Lemma frame_refl t h b s : h_obj h t = Some (OHash b s) -> frame t h h.
Proof. intros. split; [auto|split; eauto]. Qed.
Lemma frame_alloc t h o : wf h -> (exists b s, h_obj h t = Some (OHash b s)) -> frame t h (halloc h o).
Proof.
  intros W (b&s&O). pose proof (extends_halloc h o W) as E. split; [|split; [eauto|split]].
  - intros a x _ Oa. now apply E.
  - exists b, s. now apply E.
  - intros c k Kc _. now apply E.
Qed.
Lemma tinv_extends fam pa h h' t ess sz : extends h h' -> tinv fam pa h t ess sz -> tinv fam pa h' t ess sz.
Proof.
  intros E (O&Sz&N&Hb&He&Nk&Nc).
  assert (F : frame t h h').
  { split; [intros; now apply E|split; [eauto|split; [|intros; now apply E]]]. do 2 eexists. apply E. exact O. }
  split; [now apply E|]. split; auto. split; auto. split; [|split; [|auto]].
  - intros i e I. rewrite (frame_hash fam pa t h h' (e_key e) (e_ckey e) F); [now apply Hb|]. apply He. eapply in_nth_concat; eauto.
  - intros e I. destruct (He e I) as (A1&A2&A3). split; [now apply E|]. split; [now apply E|]. eapply frame_key; eauto.
Qed.
Lemma mcell_dec h a : {h_cell h a = None} + {h_cell h a <> None}.
Proof. destruct (h_cell h a); [right|left]; congruence. Qed.

Lemma observe_pair h p e n k v hm (m : M addr) : m hm = Ok (p, h) -> h_obj h p = Some (OList e) ->
  h_cell h e = Some (mkCell k (Some n) false) -> h_cell h n = Some (mkCell v None true) -> p <> false_a ->
  observe_handle m hm = Ok (ObPair k v, h).
Proof.
  intros P O E1 E2 N. unfold observe_handle. rewrite (bind_ok _ _ _ _ _ P).
  destruct (Nat.eqb_spec p false_a) as [Q|_]; [congruence|].
  unfold car. erewrite bind_ok.
  2:{ rewrite (bind_ok _ _ _ _ _ (get_ok _ _ _ O)). cbv iota beta. rewrite (bind_ok _ _ _ _ _ (getc_ok _ _ _ E1)). reflexivity. }
  unfold cdr. erewrite bind_ok; [reflexivity|].
  rewrite (bind_ok _ _ _ _ _ (get_ok _ _ _ O)). cbv iota beta. rewrite (bind_ok _ _ _ _ _ (getc_ok _ _ _ E1)).
  cbn [c_next]. cbv iota beta. rewrite (bind_ok _ _ _ _ _ (getc_ok _ _ _ E2)). reflexivity.
Qed.

Lemma do_op_ok fam fuel pa h t m op ck : wf h -> table fam pa h t m -> op_ok fam fuel h op ck ->
  exists x h', do_op fam fuel pa t op h = Ok (x, h') /\ wf h' /\ frame t h h' /\
    table fam pa h' t (fst (spec_step m ck op)) /\ obs_ok fam h' x (snd (spec_step m ck op)).
Proof.
  intros W T (K&Lk&Ok2). apply table_tinv in T. destruct T as (ess&sz&T&R).
  pose proof T as (O&Sz&N&Hb&He&Nk&Nc).
  assert (L : locate fam fuel pa t (op_key op) h = Ok ((map (map e_cell) ess, sz, bidx fam pa h ck (length ess)), h)) by now apply locate_ok.
  set (idx := bidx fam pa h ck (length ess)) in *.
  assert (Fe : find_entry fam fuel (op_key op) (nth idx (map (map e_cell) ess) []) h =
     Ok (option_map e_cell (find (fun e => ceqb ck (e_ckey e)) (nth idx ess [])), h)).
  { rewrite nth_map_nil. apply find_entry_ok; auto. intros e I. apply He. eapply in_nth_concat; eauto. }
  pose proof (find_bucket fam pa h ess ck N Hb Nk) as FB. fold idx in FB.
  destruct op as [k v|k|k|k|k v]; cbn [op_key] in *; cbn [do_op spec_step fst snd].
  - (* set *)
    unfold hash_set. destruct (find _ (nth idx ess [])) as [e|] eqn:F.
    + destruct FB as (I&E). destruct (update_ok fam pa h t ess sz m e v W T R I) as (h'&P&W'&Fr&T'&R').
      exists (ObVal v), h'. split.
      { erewrite bind_ok; [reflexivity|]. rewrite (bind_ok _ _ _ _ _ L). cbv iota beta.
        rewrite (bind_ok _ _ _ _ _ Fe). cbn [option_map]. now rewrite (bind_ok _ _ _ _ _ P). }
      split; auto. split; auto. split; [|reflexivity]. apply table_tinv. rewrite <- E. eauto.
    + destruct (insert_ok fam pa h t ess sz m k ck v W T R K FB) as (r&h'&ess'&P&W'&Fr&T'&R'&_).
      exists (ObVal v), h'. split.
      { erewrite bind_ok; [reflexivity|]. rewrite (bind_ok _ _ _ _ _ L). cbv iota beta.
        rewrite (bind_ok _ _ _ _ _ Fe). cbn [option_map]. now rewrite (bind_ok _ _ _ _ _ P). }
      split; auto. split; auto. split; [|reflexivity]. apply table_tinv. eauto.
  - (* ref *)
    unfold hash_ref. destruct (find _ (nth idx ess [])) as [e|] eqn:F.
    + destruct FB as (I&E). destruct (He e I) as (E1&E2&E3). rewrite (mrep_find ess m ck e R I E).
      exists (ObVal (e_val e)), h. split.
      { erewrite bind_ok; [reflexivity|]. rewrite (bind_ok _ _ _ _ _ L). cbv iota beta.
        rewrite (bind_ok _ _ _ _ _ Fe). cbn [option_map]. rewrite (bind_ok _ _ _ _ _ (getc_ok _ _ _ E1)). cbn [c_next].
        now rewrite (bind_ok _ _ _ _ _ (getc_ok _ _ _ E2)). }
      split; auto. split; [eapply frame_refl; eauto|]. split; [|reflexivity]. apply table_tinv. eauto.
    + rewrite (mrep_none ess m ck R FB). exists (ObVal false_a), h. split.
      { erewrite bind_ok; [reflexivity|]. rewrite (bind_ok _ _ _ _ _ L). cbv iota beta.
        rewrite (bind_ok _ _ _ _ _ Fe). reflexivity. }
      split; auto. split; [eapply frame_refl; eauto|]. split; [|reflexivity]. apply table_tinv. eauto.
  - (* remove *)
    unfold hash_remove.
    assert (Re : remove_entry fam fuel k (nth idx (map (map e_cell) ess) []) h =
       Ok (match find (fun e => ceqb ck (e_ckey e)) (nth idx ess []) with Some _ => Some (map e_cell (removed ck (nth idx ess []))) | None => None end, h)).
    { rewrite nth_map_nil. apply remove_entry_ok; auto. intros e I. apply He. eapply in_nth_concat; eauto. }
    destruct (find _ (nth idx ess [])) as [e|] eqn:F.
    + destruct (remove_ok fam pa h t ess sz m ck e W T R F) as (h'&P&W'&Fr&T'&R').
      exists (ObVal none_a), h'. split.
      { erewrite bind_ok; [reflexivity|]. rewrite (bind_ok _ _ _ _ _ L). cbv iota beta.
        rewrite (bind_ok _ _ _ _ _ Re). cbv iota beta. now rewrite (bind_ok _ _ _ _ _ P). }
      split; auto. split; auto. split; [|reflexivity]. apply table_tinv. eauto.
    + exists (ObVal none_a), h. split.
      { erewrite bind_ok; [reflexivity|]. rewrite (bind_ok _ _ _ _ _ L). cbv iota beta.
        rewrite (bind_ok _ _ _ _ _ Re). reflexivity. }
      split; auto. split; [eapply frame_refl; eauto|]. split; [|reflexivity]. apply table_tinv. exists ess, sz. split; auto.
      intros c w. unfold m_remove. destruct (ckey_eq_dec c ck) as [->|]; [|apply R].
      split; [discriminate|]. intros (e&I&E1&_). exfalso. eapply FB; eauto.
  - (* handle *)
    destruct (find _ (nth idx ess [])) as [e|] eqn:F.
    + destruct FB as (I&E). destruct (He e I) as (E1&E2&E3). rewrite (mrep_find ess m ck e R I E).
      set (h' := halloc h (OList (e_cell e))). assert (Ex : extends h h') by now apply extends_halloc.
      exists (ObPair (e_key e) (e_val e)), h'. split.
      { eapply observe_pair with (p := h_next h) (e := e_cell e) (n := e_vcell e).
        - unfold hash_get_handle. rewrite (bind_ok _ _ _ _ _ L). cbv iota beta. rewrite (bind_ok _ _ _ _ _ Fe). reflexivity.
        - cbn. now rewrite upd_same.
        - now apply Ex.
        - now apply Ex.
        - pose proof (wf_next _ W). unfold true_a, false_a in *. lia. }
      split; [now apply wf_halloc|]. split; [apply frame_alloc; eauto|]. split.
      * apply table_tinv. exists ess, sz. split; auto. eapply tinv_extends; eauto.
      * cbn. split; auto. rewrite <- E. eapply frame_key; [|exact E3]. apply frame_alloc; eauto.
    + rewrite (mrep_none ess m ck R FB). exists ObNo, h. split.
      { unfold observe_handle, hash_get_handle. erewrite bind_ok; [|rewrite (bind_ok _ _ _ _ _ L); cbv iota beta; rewrite (bind_ok _ _ _ _ _ Fe); reflexivity].
        reflexivity. }
      split; auto. split; [eapply frame_refl; eauto|]. split; [|exact I]. apply table_tinv. eauto.
  - (* create handle *)
    destruct (find _ (nth idx ess [])) as [e|] eqn:F.
    + destruct FB as (I&E). destruct (update_ok fam pa h t ess sz m e v W T R I) as (h1&P&W1&Fr1&T1&R1).
      assert (Ie : In (setv (e_ckey e) v e) (concat (map (map (setv (e_ckey e) v)) ess))) by (rewrite concat_map_map; now apply in_map).
      pose proof T1 as (O1&_&_&_&He1&_&_). destruct (He1 _ Ie) as (E1&E2&E3).
      rewrite setv_cell in E1. rewrite setv_vcell in E1, E2. rewrite setv_key in E1, E3. rewrite setv_ckey in E3.
      assert (Ev : e_val (setv (e_ckey e) v e) = v) by (unfold setv; now rewrite (proj2 (ceqb_eq _ _) eq_refl)). rewrite Ev in E2.
      assert (Av : exists o, h_obj h1 v = Some o /\ (forall c, o <> OList c) /\ o <> ONil).
      { destruct Ok2 as (o&Ov&A1&A2). destruct (Nat.eq_dec v t) as [->|Nv].
        - rewrite O1. eexists. split; [reflexivity|]. split; congruence.
        - exists o. split; auto. now apply Fr1. }
      destruct Av as (o&Ov&Av1&Av2).
      destruct (cons_pair fuel h1 (e_key e) v W1) as (y&h2&P2&E12&W2&Pr&Fy).
      { exists o. split; auto. intros c ->. exfalso. now apply (Av1 c). }
      destruct Pr as (c&kc&Oc&Kc&Dc&_&Nx). rewrite (proj1 E12 _ _ Ov) in Nx.
      assert (M : exists m, c_next kc = Some m /\ h_cell h2 m = Some (mkCell v None true)).
      { destruct o; try (destruct Nx as (mm&N1&N2&_); eauto; fail); exfalso; [now apply Av2|now apply (Av1 c0)]. }
      destruct M as (mm&N1&N2).
      assert (Dk : c_dotted kc = false).
      { assert (Q : exists o', h_obj h1 v = Some o' /\ True) by eauto. clear Q.
        unfold cons in P2. rewrite (bind_ok _ _ _ _ _ (get_ok _ _ _ Ov)) in P2.
        destruct o; try (exfalso; now apply Av2); try (exfalso; now apply (Av1 c0));
          cbn in P2; inversion P2; subst; cbn in Oc, Kc; rewrite upd_same in Oc; inversion Oc; subst;
          rewrite upd_same in Kc; inversion Kc; reflexivity. }
      exists (ObPair (e_key e) v), h2. split.
      { eapply observe_pair with (p := y) (e := c) (n := mm).
        - unfold hash_create_handle. rewrite (bind_ok _ _ _ _ _ L). cbv iota beta. rewrite (bind_ok _ _ _ _ _ Fe). cbn [option_map].
          rewrite (bind_ok _ _ _ _ _ P). rewrite (bind_ok _ _ _ _ _ (getc_ok _ _ _ E1)). cbn [c_next].
          rewrite (bind_ok _ _ _ _ _ (getc_ok _ _ _ E2)). exact P2.
        - exact Oc.
        - rewrite Kc. destruct kc as [d nx dt]; cbn in *. congruence.
        - exact N2.
        - intros ->. destruct W1 as (_&_&_&A&_). congruence. }
      assert (Fr2 : frame t h1 h2) by (split; [intros; now apply E12|split; [do 2 eexists; exact O1|split; [do 2 eexists; apply E12; exact O1|intros; now apply E12]]]).
      split; auto. split; [eapply frame_trans; eauto|]. split.
      * apply table_tinv. rewrite <- E. do 2 eexists. split; [eapply tinv_extends; eauto|exact R1].
      * cbn. split; auto. rewrite <- E. eapply frame_key; [exact Fr2|exact E3].
    + destruct (insert_ok fam pa h t ess sz m k ck v W T R K FB) as (r&h'&ess'&P&W'&Fr&T'&R'&ec&n&A1&A2&A3&A4).
      exists (ObPair k v), h'. split.
      { eapply observe_pair; eauto. unfold hash_create_handle. rewrite (bind_ok _ _ _ _ _ L). cbv iota beta.
        rewrite (bind_ok _ _ _ _ _ Fe). exact P. }
      split; auto. split; auto. split; [apply table_tinv; eauto|]. cbn. split; auto. eapply frame_key; eauto.
Qed.
Lemma frame_op_ok fam fuel t h h' op ck : frame t h h' -> op_ok fam fuel h op ck -> op_ok fam fuel h' op ck.
Proof.
  intros F (K&Lk&V). split; [eapply frame_key; eauto|]. split; auto. destruct op; auto. destruct V as (o&O&A1&A2).
  destruct (Nat.eq_dec v t) as [->|N].
  - destruct F as (_&_&(b&s&Q)&_). exists (OHash b s). split; auto. split; congruence.
  - exists o. split; auto. now apply F.
Qed.
Lemma do_ops_ok fam fuel pa t ops : forall h m, wf h -> table fam pa h t m ->
  Forall (fun p => op_ok fam fuel h (fst p) (snd p)) ops ->
  exists xs h', do_ops fam fuel pa t (map fst ops) h = Ok (xs, h') /\ wf h' /\ frame t h h' /\
    table fam pa h' t (fst (spec_run m ops)) /\ Forall2 (obs_ok fam h') xs (snd (spec_run m ops)).
Proof.
  induction ops as [|(op,ck) ops IH]; intros h m W T F.
  - exists [], h. split; [reflexivity|]. split; auto. pose proof T as T0. apply table_tinv in T0. destruct T0 as (ess&sz&(O&_)&_).
    split; [eapply frame_refl; eauto|]. split; [exact T|constructor].
  - inversion F as [|? ? F1 F2]; subst. cbn [fst snd] in F1.
    destruct (do_op_ok fam fuel pa h t m op ck W T F1) as (x&h1&P&W1&Fr&T1&Ox).
    destruct (IH h1 _ W1 T1) as (xs&h2&P2&W2&Fr2&T2&Ox2).
    { eapply Forall_impl; [|exact F2]. cbn. intros p Hp. eapply frame_op_ok; eauto. }
    exists (x :: xs), h2. cbn [map fst do_ops spec_run].
    destruct (spec_step m ck op) as (m1, r) eqn:S1. cbn [fst snd] in *.
    destruct (spec_run m1 ops) as (m2, rs) eqn:S2. cbn [fst snd] in *.
    split; [rewrite (bind_ok _ _ _ _ _ P); now rewrite (bind_ok _ _ _ _ _ P2)|].
    split; auto. split; [eapply frame_trans; eauto|]. split; auto. constructor; auto.
    destruct x, r; cbn in *; auto. destruct Ox. split; auto. eapply frame_key; eauto.
Qed.

(** creation *)
Lemma concat_repeat_nil {A} n : concat (repeat (@nil A) n) = [].
Proof. induction n; cbn; auto. Qed.
Lemma nth_repeat_nil {A} n i : nth i (repeat (@nil A) n) [] = [].
Proof. revert i. induction n; intros [|i]; cbn; auto. Qed.
Lemma fresh_table fam pa h n : wf h -> (0 < n)%nat ->
  table fam pa (halloc h (OHash (repeat [] n) 0)) (h_next h) m_empty.
Proof.
  intros W L. exists (repeat [] n), 0.
  split; [cbn; rewrite upd_same; f_equal; f_equal; clear; induction n; cbn; f_equal; auto|].
  rewrite concat_repeat_nil. split; auto. split; [destruct n; [lia|discriminate]|]. split.
  { intros i e. rewrite nth_repeat_nil. intros []. }
  split; [intros e []|]. split; [constructor|]. split; [constructor|].
  intros c v. unfold m_empty. split; [discriminate|]. intros (e&[]&_).
Qed.
(** the number of distinct keys *)
Lemma table_size fam pa h t m : table fam pa h t m ->
  exists bs sz ks, h_obj h t = Some (OHash bs sz) /\ sz = Z.of_nat (length ks) /\ NoDup ks /\
    forall c, In c ks <-> m c <> None.
Proof.
  intros T. apply table_tinv in T. destruct T as (ess&sz&(O&Sz&N&Hb&He&Nk&Nc)&R).
  exists (map (map e_cell) ess), sz, (map e_ckey (concat ess)). split; auto. split; [now rewrite map_length|]. split; auto.
  intros c. split.
  - intros I. apply in_map_iff in I. destruct I as (e&<-&I). rewrite (mrep_find ess m _ e R I eq_refl). discriminate.
  - intros H. destruct (m c) as [v|] eqn:E; [|congruence]. apply R in E. destruct E as (e&I&<-&_). now apply in_map.
Qed.
(** hash-fold visits each binding exactly once *)
Lemma fold_entries_ok fam h es : (forall e, In e es -> entry_in fam h e) ->
  fold_entries (map e_cell es) h = Ok (map (fun e => (e_key e, e_val e)) es, h).
Proof.
  induction es as [|e es IH]; intros He; [reflexivity|]. cbn [map fold_entries].
  destruct (He e (or_introl eq_refl)) as (E1&E2&_).
  rewrite (bind_ok _ _ _ _ _ (getc_ok _ _ _ E1)). cbn [c_next]. rewrite (bind_ok _ _ _ _ _ (getc_ok _ _ _ E2)).
  rewrite (bind_ok _ _ _ _ _ (IH (fun e' I => He e' (or_intror I)))). reflexivity.
Qed.
Lemma fold_visits_ok fam pa h t m : table fam pa h t m ->
  exists kvs cks, hash_fold_visits t h = Ok (kvs, h) /\
    Forall2 (fun kv c => key_in fam h (fst kv) c /\ m c = Some (snd kv)) kvs cks /\ NoDup cks /\
    forall c, In c cks <-> m c <> None.
Proof.
  intros T. pose proof T as T0. apply table_tinv in T0. destruct T0 as (ess&sz&(O&Sz&N&Hb&He&Nk&Nc)&R).
  exists (map (fun e => (e_key e, e_val e)) (concat ess)), (map e_ckey (concat ess)). split.
  - unfold hash_fold_visits. rewrite (bind_ok _ _ _ _ _ (get_ok _ _ _ O)). cbv iota beta. rewrite concat_map_map.
    eapply fold_entries_ok; eauto.
  - split; [|split; auto].
    + assert (G : forall es, (forall e, In e es -> In e (concat ess)) ->
        Forall2 (fun kv c => key_in fam h (fst kv) c /\ m c = Some (snd kv)) (map (fun e => (e_key e, e_val e)) es) (map e_ckey es)).
      { induction es as [|e es IH]; intros I; constructor.
        - cbn. split; [apply He; apply I; now left|]. apply (mrep_find ess m _ e R); auto. apply I. now left.
        - apply IH. intros x Hx. apply I. now right. }
      apply G. auto.
    + intros c. split.
      * intros I. apply in_map_iff in I. destruct I as (e&<-&I). rewrite (mrep_find ess m _ e R I eq_refl). discriminate.
      * intros H. destruct (m c) as [v|] eqn:E; [|congruence]. apply R in E. destruct E as (e&I&<-&_). now apply in_map.
Qed.
