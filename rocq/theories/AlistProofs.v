From Coq Require Import Lia.
From Verif Require Import Base NumModel HeapModel EqModel ListModel ListSpec ListProofs ListProofs2 AlistModel AlistSpec.

Lemma Forall2_impl {A B} (P Q : A -> B -> Prop) xs ys : (forall x y, P x y -> Q x y) -> Forall2 P xs ys -> Forall2 Q xs ys.
Proof. intros H. induction 1; constructor; auto. Qed.

Lemma Forall2_len {A B} (P : A -> B -> Prop) xs ys : Forall2 P xs ys -> length xs = length ys.
Proof. induction 1; cbn; auto. Qed.

Lemma Forall2_In {A B} (P : A -> B -> Prop) xs ys : Forall2 P xs ys -> Forall2 (fun x y => In x xs /\ P x y) xs ys.
Proof.
  intros H. assert (G : forall X, incl xs X -> Forall2 (fun x y => In x X /\ P x y) xs ys).
  { induction H; intros X I; constructor; [split; auto; apply I; now left|]. apply IHForall2. intros z Hz. apply I. now right. }
  apply G, incl_refl.
Qed.
Lemma Forall2_refl_in {A} (P : A -> A -> Prop) xs : (forall x, In x xs -> P x x) -> Forall2 P xs xs.
Proof. induction xs; intros H; constructor; [apply H; now left|]. apply IHxs. intros. apply H. now right. Qed.

(** ** comparisons do not depend on newly allocated objects *)
Lemma get_ext h h' a : extends h h' -> h_obj h a <> None -> h_obj h' a = h_obj h a.
Proof. intros (E&_) N. destruct (h_obj h a) eqn:O; [|congruence]. now apply E. Qed.

Definition stable (m : M bool) : Prop :=
  forall h h' r h0, extends h h' -> m h = Ok (r, h0) -> h0 = h /\ m h' = Ok (r, h').
Lemma stable_ret b : stable (ret b).
Proof. intros h h' r h0 E H. unfold ret in *. inversion H; subst. auto. Qed.
Lemma stable_lift r : stable (lift r).
Proof. intros h h' x h0 E H. unfold lift in *. destruct r; inversion H; subst; auto. Qed.
Lemma stable_fail e : (forall x, e <> Ok x) -> stable (fail e).
Proof. intros N h h' r h0 E H. unfold fail in H. exfalso. eapply N; eauto. Qed.
Lemma stable_get a (k : obj -> M bool) : (forall o, stable (k o)) -> stable (mbind (get a) k).
Proof.
  intros S h h' r h0 E H. unfold mbind, get in *.
  destruct (h_obj h a) as [o|] eqn:O; [|discriminate].
  replace (h_obj h' a) with (Some o) by (symmetry; now apply E).
  eapply S; eauto.
Qed.
Lemma stable_getc a (k : cell -> M bool) : (forall o, stable (k o)) -> stable (mbind (getc a) k).
Proof.
  intros S h h' r h0 E H. unfold mbind, getc in *.
  destruct (h_cell h a) as [o|] eqn:O; [|discriminate].
  replace (h_cell h' a) with (Some o) by (symmetry; now apply E).
  eapply S; eauto.
Qed.
Lemma stable_bind (m : M bool) (k : bool -> M bool) : stable m -> (forall b, stable (k b)) -> stable (mbind m k).
Proof.
  intros Sm Sk h h' r h0 E H. unfold mbind in *.
  destruct (m h) as [[b h1]| | | |] eqn:Hm; try discriminate.
  destruct (Sm _ _ _ _ E Hm) as (->&->). eapply Sk; eauto.
Qed.
Lemma legacy_stable fuel :
  (forall a b, stable (legacy_eq fuel a b)) /\ (forall l1 l2, stable (legacy_list_eq fuel l1 l2)).
Proof.
  induction fuel as [|f (IHe&IHl)].
  { split; intros; cbn; apply stable_fail; discriminate. }
  split.
  - intros a b. cbn [legacy_eq]. apply stable_get; intros oa. apply stable_get; intros ob.
    destruct (num_vs_float oa ob); [apply stable_lift|].
    destruct (negb _); [apply stable_ret|].
    destruct oa, ob; try apply stable_ret; try apply stable_lift; try apply IHl.
    + destruct (Nat.eqb _ _); [|apply stable_ret].
      revert elems0. induction elems as [|x v IHv]; intros [|y w]; try apply stable_ret.
      apply stable_bind; [apply IHe|]. intros []; [apply IHv|apply stable_ret].
    + destruct (legacy_supported tag); [apply stable_ret|apply stable_fail; discriminate].
  - intros [c|] [d|]; cbn [legacy_list_eq]; try apply stable_ret.
    apply stable_getc; intros x. apply stable_getc; intros y.
    apply stable_bind; [apply IHe|]. intros b. destruct (negb b); [apply stable_ret|apply IHl].
Qed.
Lemma eqptr_stable a b : stable (is_eq_pointer a b).
Proof.
  unfold is_eq_pointer. destruct (Nat.eqb a b); [apply stable_ret|].
  apply stable_get; intros oa. apply stable_get; intros ob. destruct oa, ob; apply stable_ret.
Qed.

(** ** lookups *)
Lemma entry_matches_ok h p f x : live h x ->
  (forall k, key_at h x = Some k -> p k h = Ok (f k, h)) ->
  entry_matches p x h = Ok (hit h f x, h).
Proof.
  intros (o&O&L) Hp. unfold entry_matches, entry_key, hit, key_at in *. unfold mbind, get. rewrite O in *.
  destruct o; try reflexivity. unfold getc.
  destruct (h_cell h c) as [k|] eqn:K; [|exfalso; eapply L; eauto]. cbn. auto.
Qed.
Lemma ass_loop_ok h p f l cs xs : chain h l cs xs -> forall fuel, (length xs <= fuel)%nat ->
  (forall x, In x xs -> live h x) ->
  (forall x k, In x xs -> key_at h x = Some k -> p k h = Ok (f k, h)) ->
  ass_loop fuel p l h = Ok (match find (hit h f) xs with Some x => x | None => false_a end, h).
Proof.
  induction 1; intros fuel L Lv Hp; [destruct fuel; reflexivity|].
  destruct fuel; cbn [length] in L; [lia|]. cbn [ass_loop find].
  rewrite (bind_ok _ _ _ _ _ (getc_ok _ _ _ H)).
  erewrite bind_ok; [|apply entry_matches_ok; [apply Lv; now left|intros k0; apply Hp; now left]].
  destruct (hit h f (c_data k)); [reflexivity|].
  apply IHchain; [lia| |]; intros; [apply Lv; now right|eapply Hp; eauto; now right].
Qed.
Lemma ass_prim_ok h p f a xs fuel : is_list h a xs -> (length xs <= fuel)%nat ->
  (forall x, In x xs -> live h x) ->
  (forall x k, In x xs -> key_at h x = Some k -> p k h = Ok (f k, h)) ->
  ass_prim fuel p a h = Ok (match find (hit h f) xs with Some x => x | None => false_a end, h).
Proof.
  intros (cs&[(N&->&->)|(c&O&C)]) L Lv Hp; unfold ass_prim.
  - now rewrite (bind_ok _ _ _ _ _ (get_ok _ _ _ N)).
  - rewrite (bind_ok _ _ _ _ _ (get_ok _ _ _ O)). cbv iota beta. eapply ass_loop_ok; eauto.
Qed.
Lemma ass_all h k al xs fuel (f : addr -> bool) : is_list h al xs -> (length xs <= fuel)%nat ->
  (forall x, In x xs -> live h x) ->
  let result := match find (hit h f) xs with Some x => x | None => false_a end in
  ((forall x k', In x xs -> key_at h x = Some k' -> is_eq_pointer k k' h = Ok (f k', h)) ->
     assq fuel k al h = Ok (result, h)) /\
  ((forall x k', In x xs -> key_at h x = Some k' -> legacy_eq fuel k k' h = Ok (f k', h)) ->
     assoc fuel k al h = Ok (result, h) /\ assv fuel k al h = Ok (result, h)).
Proof.
  intros IL L Lv result. split.
  - intros H. unfold assq, result. eapply ass_prim_ok; eauto.
  - intros H. pose proof (ass_prim_ok h (legacy_eq fuel k) f al xs fuel IL L Lv H) as P.
    split; [exact P|]. unfold assv. unfold ass_prim in P.
    destruct IL as (cs&[(N&->&->)|(c&O&C)]).
    + now rewrite (bind_ok _ _ _ _ _ (get_ok _ _ _ N)).
    + rewrite (bind_ok _ _ _ _ _ (get_ok _ _ _ O)) in P. rewrite (bind_ok _ _ _ _ _ (get_ok _ _ _ O)). exact P.
Qed.
Lemma hit_live h f x : hit h f x = true -> exists c k, h_obj h x = Some (OList c) /\ h_cell h c = Some k /\ f (c_data k) = true.
Proof.
  unfold hit, key_at. destruct (h_obj h x) as [[]|]; try discriminate.
  destruct (h_cell h c) as [k|] eqn:K; [|discriminate]. eauto.
Qed.
Lemma assoc_ref_ok h k al xs fuel (f : addr -> bool) : wf h -> is_list h al xs -> (length xs <= fuel)%nat ->
  (forall x, In x xs -> entry_ok h x) ->
  (forall x k', In x xs -> key_at h x = Some k' -> legacy_eq fuel k k' h = Ok (f k', h)) ->
  assoc_ref fuel al k h = Ok (match find (hit h f) xs with Some x => value_at h x | None => false_a end, h).
Proof.
  intros W IL L Ev H. unfold assoc_ref.
  destruct (ass_all h k al xs fuel f IL L (fun x I => proj1 (Ev x I))) as (_&P). destruct (P H) as (P1&_).
  rewrite (bind_ok _ _ _ _ _ P1).
  destruct (find (hit h f) xs) as [x|] eqn:F.
  - destruct (find_some _ _ F) as (I&Hh). destruct (hit_live _ _ _ Hh) as (c&kk&O&K&_).
    rewrite (bind_ok _ _ _ _ _ (get_ok _ _ _ O)). cbv iota beta.
    rewrite (bind_ok _ _ _ _ _ (getc_ok _ _ _ K)). unfold value_at. rewrite O, K.
    destruct (c_next kk) as [n|] eqn:N; [|reflexivity].
    destruct (h_cell h n) as [kn|] eqn:Kn; [|exfalso; eapply (proj2 (Ev x I)); eauto].
    now rewrite (bind_ok _ _ _ _ _ (getc_ok _ _ _ Kn)).
  - destruct W as (_&_&_&Fa&_). rewrite (bind_ok _ _ _ _ _ (get_ok _ _ _ Fa)). reflexivity.
Qed.

(** ** updates *)
Definition walkable (fuel : nat) (h : heap) (v : addr) : Prop :=
  exists o, h_obj h v = Some o /\
  forall c, o = OList c -> exists t, last_cell fuel c h = Ok (t, h).
Lemma last_cell_ext fuel : forall c h h' t, extends h h' -> last_cell fuel c h = Ok (t, h) -> last_cell fuel c h' = Ok (t, h').
Proof.
  induction fuel as [|f IH]; intros c h h' t E H; [discriminate|]. cbn [last_cell] in *.
  unfold mbind, getc in *. destruct (h_cell h c) as [k|] eqn:K; [|discriminate].
  replace (h_cell h' c) with (Some k) by (symmetry; now apply E).
  destruct (c_next k); [eauto|]. unfold ret in *. now inversion H.
Qed.
Lemma walkable_ext fuel h h' v : extends h h' -> walkable fuel h v -> walkable fuel h' v.
Proof.
  intros E (o&O&Wk). exists o. split; [now apply E|]. intros c Ho. destruct (Wk c Ho) as (t&P).
  exists t. eapply last_cell_ext; eauto.
Qed.
Lemma pair_of_ext h h' y k v : extends h h' -> pair_of h y k v -> pair_of h' y k v.
Proof.
  intros E (c&kc&O&K&D&N). exists c, kc. split; [now apply E|]. split; [now apply E|]. split; auto.
  destruct (h_obj h v) as [o|] eqn:Ov; [|tauto].
  replace (h_obj h' v) with (Some o) by (symmetry; now apply E).
  destruct o; auto; destruct N as (m&N1&N2); exists m; split; auto; now apply E.
Qed.
(* pair_of, with the cells it occupies satisfying [P] *)
Definition pair_in (P : addr -> Prop) (h : heap) (y k v : addr) : Prop :=
  exists c kc, h_obj h y = Some (OList c) /\ h_cell h c = Some kc /\ c_data kc = k /\ P c /\
    match h_obj h v with
    | Some (OList n) => c_next kc = Some n
    | Some ONil => c_next kc = None
    | Some _ => exists m, c_next kc = Some m /\ h_cell h m = Some (mkCell v None true) /\ P m
    | None => False
    end.
Lemma pair_in_of P h y k v : pair_in P h y k v -> pair_of h y k v.
Proof.
  intros (c&kc&O&K&D&_&N). exists c, kc. split; auto. split; auto. split; auto.
  destruct (h_obj h v) as [o|]; auto. destruct o; auto; destruct N as (m&N1&N2&_); eauto.
Qed.
(* it survives any change that keeps objects, and keeps the cells satisfying P *)
Lemma pair_in_keep (P Q : addr -> Prop) h h' y k v :
  (forall a o, h_obj h a = Some o -> h_obj h' a = Some o) ->
  (forall c x, P c -> h_cell h c = Some x -> h_cell h' c = Some x /\ Q c) ->
  pair_in P h y k v -> pair_in Q h' y k v.
Proof.
  intros E1 E2 (c&kc&O&K&D&Pc&N). exists c, kc. destruct (E2 _ _ Pc K). repeat split; auto.
  destruct (h_obj h v) as [o|] eqn:Ov; [|tauto]. rewrite (E1 _ _ Ov).
  destruct o; auto; destruct N as (m&N1&N2&N3); destruct (E2 _ _ N3 N2); exists m; auto.
Qed.
Lemma cons_pair fuel h k v : wf h -> walkable fuel h v ->
  exists y h', cons fuel k v h = Ok (y, h') /\ extends h h' /\ wf h' /\ pair_in (fresh_for h) h' y k v /\
    h_obj h y = None.
Proof.
  intros W (o&O&Wk). unfold cons. rewrite (bind_ok _ _ _ _ _ (get_ok _ _ _ O)).
  assert (Atom : exists y h',
    (let! n := alloc_cell (mkCell v None true) in
      let! c := alloc_cell (mkCell k (Some n) false) in wrap (Some c)) h = Ok (y, h') /\ extends h h' /\ wf h' /\
      (exists c m, h_obj h' y = Some (OList c) /\ h_cell h' c = Some (mkCell k (Some m) false) /\
        fresh_for h c /\ h_cell h' m = Some (mkCell v None true) /\ fresh_for h m) /\ h_obj h y = None).
  { rewrite (bind_ok _ _ _ _ _ (allocc_eq _ _)).
    set (h1 := hallocc h _). assert (W1 : wf h1) by now apply wf_hallocc.
    rewrite (bind_ok _ _ _ _ _ (allocc_eq _ _)).
    set (h2 := hallocc h1 _). assert (W2 : wf h2) by now apply wf_hallocc.
    rewrite wrap_some. do 2 eexists. split; [reflexivity|]. split; [|split; [now apply wf_halloc|split]].
    - eapply extends_trans; [|apply extends_halloc; auto].
      eapply extends_trans; [apply extends_hallocc; auto|]. now apply extends_hallocc.
    - exists (h_next h1), (h_next h). split; [cbn; now rewrite upd_same|].
      split; [cbn; now rewrite upd_same|]. split; [apply W; cbn; lia|].
      split; [cbn; rewrite upd_other by lia; now rewrite upd_same|]. apply W. lia.
    - apply W. cbn. lia. }
  assert (Fin : (forall c, o <> OList c) -> o <> ONil -> exists y h',
    (let! n := alloc_cell (mkCell v None true) in
      let! c := alloc_cell (mkCell k (Some n) false) in wrap (Some c)) h = Ok (y, h') /\ extends h h' /\ wf h' /\
      pair_in (fresh_for h) h' y k v /\ h_obj h y = None).
  { intros A1 A2. destruct Atom as (y&h'&P&E&W'&(c&m&Oc&Kc&Fc&Km&Fm)&Fy).
    exists y, h'. split; auto. split; auto. split; auto. split; auto.
    exists c, (mkCell k (Some m) false). repeat split; auto.
    replace (h_obj h' v) with (Some o) by (symmetry; now apply E).
    destruct o; try (exists m; auto; fail); exfalso; [now apply A2|eapply A1; reflexivity]. }
  destruct o; try (apply Fin; congruence).
  - rewrite (bind_ok _ _ _ _ _ (allocc_eq _ _)). rewrite wrap_some.
    set (h1 := hallocc h _). assert (W1 : wf h1) by now apply wf_hallocc.
    assert (E : extends h (halloc h1 (OList (h_next h)))).
    { eapply extends_trans; [apply extends_hallocc; auto|now apply extends_halloc]. }
    do 2 eexists. split; [reflexivity|]. split; [exact E|]. split; [now apply wf_halloc|]. split; [|apply W; cbn; lia].
    exists (h_next h), (mkCell k None false). split; [cbn; now rewrite upd_same|].
    split; [cbn; now rewrite upd_same|]. split; auto. split; [apply W; lia|].
    replace (h_obj _ v) with (Some ONil) by (symmetry; now apply E). reflexivity.
  - rewrite (bind_ok _ _ _ _ _ (allocc_eq _ _)).
    set (h1 := hallocc h _). assert (W1 : wf h1) by now apply wf_hallocc.
    assert (E1 : extends h h1) by now apply extends_hallocc.
    destruct (Wk c eq_refl) as (t&T).
    rewrite (bind_ok _ _ _ _ _ (last_cell_ext _ _ _ _ _ E1 T)). rewrite wrap_some.
    assert (E : extends h (halloc h1 (OList (h_next h)))).
    { eapply extends_trans; [exact E1|now apply extends_halloc]. }
    do 2 eexists. split; [reflexivity|]. split; [exact E|]. split; [now apply wf_halloc|]. split; [|apply W; cbn; lia].
    exists (h_next h), (mkCell k (Some c) false). split; [cbn; now rewrite upd_same|].
    split; [cbn; now rewrite upd_same|]. split; auto. split; [apply W; lia|].
    replace (h_obj _ v) with (Some (OList c)) by (symmetry; now apply E). reflexivity.
Qed.
Lemma binv_ext h0 h h' b xs : binv h0 h b xs -> extends h h' -> wf h' -> binv h0 h' b xs.
Proof.
  intros (W&E&cs&C&F&T) E' W'. split; auto. split; [eapply extends_trans; eauto|].
  exists cs. split; [eapply chain_extends; eauto|]. auto.
Qed.
Lemma key_at_ext h h' x : extends h h' -> live h x -> key_at h' x = key_at h x.
Proof.
  intros E (o&O&L). unfold key_at. rewrite O. replace (h_obj h' x) with (Some o) by (symmetry; now apply E).
  destruct o; auto. destruct (h_cell h c) as [k|] eqn:K; [|exfalso; eapply L; eauto].
  replace (h_cell h' c) with (Some k) by (symmetry; now apply E). auto.
Qed.
Lemma live_ext h h' x : extends h h' -> live h x -> live h' x.
Proof.
  intros E (o&O&L). exists o. split; [now apply E|]. intros c Ho.
  specialize (L c Ho). destruct (h_cell h c) as [k|] eqn:K; [|congruence].
  replace (h_cell h' c) with (Some k) by (symmetry; now apply E). discriminate.
Qed.
Lemma hit_ext h h' f x : extends h h' -> live h x -> hit h' f x = hit h f x.
Proof. intros E L. unfold hit. now rewrite (key_at_ext h h'). Qed.

(* builder invariant with its cells named *)
Definition binvc (h0 h : heap) (b : builder) (cs xs : list addr) : Prop :=
  wf h /\ extends h0 h /\ chain h (b_first b) cs xs /\ Forall (fresh_for h0) cs /\
    (match b_tail b with None => cs = [] | Some t => exists cs', cs = cs' ++ [t] end).
Lemma binvc_binv h0 h b cs xs : binvc h0 h b cs xs -> binv h0 h b xs.
Proof. intros (W&E&C&F&T). split; auto. split; auto. exists cs. auto. Qed.
Lemma b_push_cells h0 h b cs xs x : wf h0 -> binvc h0 h b cs xs ->
  exists b' h', b_push b x h = Ok (b', h') /\ binvc h0 h' b' (cs ++ [h_next h]) (xs ++ [x]) /\
    h_obj h' = h_obj h /\ (forall c, ~ In c cs -> c <> h_next h -> h_cell h' c = h_cell h c).
Proof.
  intros W0 (W&E&C&F&T). unfold b_push.
  rewrite (bind_ok _ _ _ _ _ (allocc_eq _ h)).
  set (n := h_next h). set (h1 := hallocc h (mkCell x None false)).
  assert (W1 : wf h1) by now apply wf_hallocc.
  assert (E1 : extends h h1) by now apply extends_hallocc.
  assert (Nn : h_cell h1 n = Some (mkCell x None false)) by (cbn; now rewrite upd_same).
  assert (Fn : fresh_for h0 n) by now apply fresh_next.
  destruct (b_tail b) as [t|].
  - destruct T as (cs'&->).
    destruct (chain_cells_alloc _ _ _ _ t C) as [k K]; [apply in_or_app; right; now left|].
    assert (K1 : h_cell h1 t = Some k) by now apply E1.
    rewrite (bind_ok _ _ _ _ _ (getc_ok _ _ _ K1)).
    erewrite bind_ok; [|unfold setc; rewrite K1; reflexivity].
    fold (hsetc h1 t (mkCell (c_data k) (Some n) (c_dotted k))).
    exists (mkB (b_first b) (Some n)). eexists. split; [reflexivity|]. split; [|split; [reflexivity|]].
    + assert (Ft : fresh_for h0 t).
      { rewrite Forall_forall in F. apply F. apply in_or_app. right; now left. }
      split; [eapply wf_hsetc; eauto|]. split.
      { apply extends_setc_fresh; auto. eapply extends_trans; eauto. }
      split; [|split].
      * cbn [b_first]. rewrite <- app_assoc. eapply chain_snoc; eauto.
        -- eapply chain_extends; eauto.
        -- intros I. destruct (chain_cells_alloc _ _ _ _ _ C I) as [k' K'].
           apply (wf_cell_lt _ _ _ W) in K'. unfold n in K'. lia.
      * apply Forall_app. split; auto.
      * cbn. exists (cs' ++ [t]). reflexivity.
    + intros c NI Nc. cbn. rewrite upd_other, upd_other; auto. intros ->. apply NI. apply in_or_app. right; now left.
  - subst cs. inversion C as [CE| ]; subst.
    exists (mkB (Some n) (Some n)), h1. split; [reflexivity|]. split; [|split; [reflexivity|]].
    + split; auto. split; [eapply extends_trans; eauto|]. split; [|split].
      * cbn. apply (chain_cons _ n (mkCell x None false) [] []); auto. constructor.
      * constructor; auto.
      * cbn. exists []. reflexivity.
    + intros c _ Nc. cbn. now rewrite upd_other.
Qed.

(* [replaced P h0 h f k v xs ys]: ys is xs with every hit replaced by a new pair (k . v) *)
Definition replaced (P : addr -> Prop) (h0 h : heap) (f : addr -> bool) (k v : addr) : list addr -> list addr -> Prop :=
  Forall2 (fun x y => if hit h0 f x then pair_in P h y k v /\ h_obj h0 y = None else y = x).
Lemma replaced_keep (P Q : addr -> Prop) h0 h h' f k v xs ys :
  (forall a o, h_obj h a = Some o -> h_obj h' a = Some o) ->
  (forall c x, P c -> h_cell h c = Some x -> h_cell h' c = Some x /\ Q c) ->
  replaced P h0 h f k v xs ys -> replaced Q h0 h' f k v xs ys.
Proof.
  intros E1 E2 R. induction R; constructor; auto. destruct (hit h0 f x); auto.
  destruct H. split; auto. eapply pair_in_keep; eauto.
Qed.

Lemma set_loop_ok h0 cf (p : addr -> M bool) f k v l cs xs : wf h0 -> chain h0 l cs xs ->
  (forall x, stable (p x)) -> walkable cf h0 v ->
  (forall x, In x xs -> live h0 x) ->
  (forall x k', In x xs -> key_at h0 x = Some k' -> p k' h0 = Ok (f k', h0)) ->
  forall fuel h b bs found xs0 ys, (length xs <= fuel)%nat -> binvc h0 h b bs ys ->
  replaced (fun c => fresh_for h0 c /\ ~ In c bs) h0 h f k v xs0 ys ->
  exists b' h' bs' zs, set_loop fuel cf p k v b found l h = Ok ((b', found || existsb (hit h0 f) xs), h') /\
    binvc h0 h' b' bs' zs /\ replaced (fun c => fresh_for h0 c /\ ~ In c bs') h0 h' f k v (xs0 ++ xs) zs.
Proof.
  intros W0 C St Wk. induction C as [|c k0 cs xs K0 D0 C IH]; intros Lv Hp fuel h b bs found xs0 ys L B R.
  - exists b, h, bs, ys. rewrite app_nil_r. cbn. rewrite orb_false_r.
    split; [destruct fuel; reflexivity|]. split; auto.
  - destruct fuel; cbn [length] in L; [lia|]. cbn [set_loop].
    assert (E0 : extends h0 h) by apply B. assert (Wh : wf h) by apply B.
    assert (K : h_cell h c = Some k0) by (now apply E0).
    rewrite (bind_ok _ _ _ _ _ (getc_ok _ _ _ K)).
    assert (Lx : live h0 (c_data k0)) by (apply Lv; now left).
    erewrite bind_ok; [|apply (entry_matches_ok h p f)].
    2:{ eapply live_ext; eauto. }
    2:{ intros k' Hk. rewrite (key_at_ext h0 h) in Hk by auto.
        pose proof (Hp _ _ (or_introl eq_refl) Hk) as P. now destruct (St k' _ _ _ _ E0 P). }
    rewrite (hit_ext h0 h) by auto. cbn [existsb].
    assert (Lv' : forall x, In x xs -> live h0 x) by (intros; apply Lv; now right).
    assert (Hp' : forall x k', In x xs -> key_at h0 x = Some k' -> p k' h0 = Ok (f k', h0)) by (intros; eapply Hp; eauto; now right).
    replace (xs0 ++ c_data k0 :: xs) with ((xs0 ++ [c_data k0]) ++ xs) by (now rewrite <- app_assoc).
    assert (BC : forall h2 d, chain h2 (b_first b) bs ys -> In d bs -> h_cell h2 d <> None) by
      (intros h2 d C2 I; destruct (chain_cells_alloc _ _ _ _ _ C2 I) as (?&->); discriminate).
    destruct (hit h0 f (c_data k0)) eqn:Hh.
    + destruct (cons_pair cf h k v Wh (walkable_ext _ _ _ _ E0 Wk)) as (np&h1&P1&E1&W1&Pr&Fy).
      rewrite (bind_ok _ _ _ _ _ P1).
      assert (B1 : binvc h0 h1 b bs ys).
      { destruct B as (_&_&Cb&Fb&Tb). split; auto. split; [eapply extends_trans; eauto|].
        split; [eapply chain_extends; eauto|auto]. }
      destruct (b_push_cells h0 h1 b bs ys np W0 B1) as (b1&h2&P2&B2&Ho2&Kp).
      rewrite (bind_ok _ _ _ _ _ P2).
      assert (Keep : forall d x, ~ In d bs -> h_cell h1 d = Some x -> h_cell h2 d = Some x /\ ~ In d (bs ++ [h_next h1])).
      { intros d x NI Hd. assert (d <> h_next h1) by (apply (wf_cell_lt _ _ _ W1) in Hd; lia).
        rewrite Kp by auto. split; auto. intros I. apply in_app_or in I. destruct I as [I|[I|[]]]; congruence. }
      destruct (IH Lv' Hp' fuel h2 b1 (bs ++ [h_next h1]) true (xs0 ++ [c_data k0]) (ys ++ [np])) as (b'&h'&bs'&zs&P3&B3&R3); [lia|auto| |].
      { apply Forall2_app.
        - eapply replaced_keep; [| |exact R]; cbn.
          + intros a o Ha. rewrite Ho2. now apply E1.
          + intros d x (F1&F2) Hd. destruct (Keep d x F2 (proj1 (proj2 E1) _ _ Hd)). auto.
        - constructor; [|constructor]. rewrite Hh. split.
          + eapply pair_in_keep; [| |exact Pr]; cbn.
            * intros a o Ha. now rewrite Ho2.
            * intros d x F Hd. assert (NI : ~ In d bs).
              { intros I. apply (BC h d (proj1 (proj2 (proj2 B))) I). exact F. }
              destruct (Keep d x NI Hd). split; auto. split; auto.
              red in F |- *. destruct (h_cell h0 d) as [kd|] eqn:Kd; auto. apply E0 in Kd. congruence.
          + destruct (h_obj h0 np) eqn:On; auto. apply E0 in On. congruence. }
      exists b', h', bs', zs. rewrite P3. cbn. rewrite orb_true_r. auto.
    + destruct (b_push_cells h0 h b bs ys (c_data k0) W0 B) as (b1&h2&P2&B2&Ho2&Kp).
      rewrite (bind_ok _ _ _ _ _ P2).
      destruct (IH Lv' Hp' fuel h2 b1 (bs ++ [h_next h]) found (xs0 ++ [c_data k0]) (ys ++ [c_data k0])) as (b'&h'&bs'&zs&P3&B3&R3); [lia|auto| |].
      { apply Forall2_app.
        - eapply replaced_keep; [| |exact R]; cbn.
          + intros a o Ha. now rewrite Ho2.
          + intros d x (F1&F2) Hd. assert (d <> h_next h) by (apply (wf_cell_lt _ _ _ Wh) in Hd; lia).
            rewrite Kp by auto. split; auto. split; auto. intros I. apply in_app_or in I. destruct I as [I|[I|[]]]; congruence.
        - constructor; [|constructor]. now rewrite Hh. }
      exists b', h', bs', zs. rewrite P3. cbn. auto.
Qed.

Lemma existsb_false_hits h f k v P h' xs zs : existsb (hit h f) xs = false -> replaced P h h' f k v xs zs -> zs = xs.
Proof.
  intros Ex R. induction R; auto. cbn in Ex. apply orb_false_iff in Ex. destruct Ex as (H1&H2).
  rewrite H1 in H. f_equal; auto.
Qed.
Lemma set_prim_ok h (p : addr -> M bool) f al k v xs fuel : wf h -> is_list h al xs -> (length xs <= fuel)%nat ->
  (forall x, stable (p x)) -> walkable fuel h v -> (forall x, In x xs -> live h x) ->
  (forall x k', In x xs -> key_at h x = Some k' -> p k' h = Ok (f k', h)) ->
  exists r h' zs, set_prim fuel p al k v h = Ok (r, h') /\ is_list h' r zs /\ extends h h' /\ wf h' /\
    if existsb (hit h f) xs
    then Forall2 (fun x y => if hit h f x then pair_of h' y k v else y = x) xs zs
    else exists y, zs = y :: xs /\ pair_of h' y k v.
Proof.
  intros W (cs&[(N&->&->)|(c&O&C)]) L St Wk Lv Hp; unfold set_prim.
  - rewrite (bind_ok _ _ _ _ _ (get_ok _ _ _ N)). cbv iota beta. unfold acons.
    destruct (cons_pair fuel h k v W Wk) as (y&h1&P1&E1&W1&Pr&_). rewrite (bind_ok _ _ _ _ _ P1).
    assert (N1 : h_obj h1 nil_a = Some ONil) by apply W1.
    rewrite (bind_ok _ _ _ _ _ (get_ok _ _ _ N1)). cbv iota beta.
    rewrite (bind_ok _ _ _ _ _ (allocc_eq _ _)). rewrite wrap_some.
    set (h2 := hallocc h1 _). assert (W2 : wf h2) by now apply wf_hallocc.
    assert (E2 : extends h1 h2) by now apply extends_hallocc.
    assert (E3 : extends h2 (halloc h2 (OList (h_next h1)))) by now apply extends_halloc.
    exists (h_next h2), (halloc h2 (OList (h_next h1))), [y].
    split; [reflexivity|]. split.
    { exists [h_next h1]. right. exists (h_next h1). split; [cbn; now rewrite upd_same|].
      apply (chain_cons _ _ (mkCell y None false) [] []); cbn; auto using chain_nil. now rewrite upd_same. }
    split; [eapply extends_trans; [|eapply extends_trans]; eauto|]. split; [now apply wf_halloc|].
    cbn [existsb]. exists y. split; auto. eapply pair_of_ext; [|eapply pair_in_of; exact Pr].
    eapply extends_trans; eauto.
  - rewrite (bind_ok _ _ _ _ _ (get_ok _ _ _ O)). cbv iota beta.
    destruct (set_loop_ok h fuel p f k v (Some c) cs xs W C St Wk Lv Hp fuel h b_empty [] false [] []) as (b&h1&bs&zs&P&B&R); auto.
    { split; auto. split; [apply extends_refl|]. split; [constructor|]. split; [constructor|reflexivity]. }
    { constructor. }
    rewrite (bind_ok _ _ _ _ _ P). cbn [orb app] in *. cbv iota beta.
    destruct (existsb (hit h f) xs) eqn:Ex.
    + destruct B as (Wb&Eb&Cb&Fb&Tb).
      destruct (b_first b) as [cf|] eqn:Bf.
      * rewrite wrap_some. assert (E1 : extends h1 (halloc h1 (OList cf))) by now apply extends_halloc.
        do 2 eexists. exists zs. split; [reflexivity|]. split.
        { exists bs. right. exists cf. split; [cbn; now rewrite upd_same|]. eapply chain_extends; eauto. }
        split; [eapply extends_trans; eauto|]. split; [now apply wf_halloc|].
        eapply Forall2_impl; [|exact R]. cbn. intros x y Hxy. destruct (hit h f x); auto.
        destruct Hxy as (Hxy&_). eapply pair_of_ext; [exact E1|eapply pair_in_of; eauto].
      * exfalso. inversion Cb; subst. inversion R; subst. discriminate.
    + rewrite (existsb_false_hits _ _ _ _ _ _ _ _ Ex R) in *. clear R.
      destruct B as (Wb&Eb&Cb&Fb&Tb).
      destruct (cons_pair fuel h1 k v Wb (walkable_ext _ _ _ _ Eb Wk)) as (y&h2&P2&E2&W2&Pr&_).
      rewrite (bind_ok _ _ _ _ _ P2). rewrite (bind_ok _ _ _ _ _ (allocc_eq _ _)). rewrite wrap_some.
      set (h3 := hallocc h2 _). assert (W3 : wf h3) by now apply wf_hallocc.
      assert (E3 : extends h2 h3) by now apply extends_hallocc.
      assert (E4 : extends h3 (halloc h3 (OList (h_next h2)))) by now apply extends_halloc.
      assert (E24 : extends h2 (halloc h3 (OList (h_next h2)))) by (eapply extends_trans; eauto).
      do 2 eexists. exists (y :: xs). split; [reflexivity|]. split.
      { exists (h_next h2 :: bs). right. exists (h_next h2). split; [cbn; now rewrite upd_same|].
        apply (chain_cons _ _ (mkCell y (b_first b) false)); cbn; [now rewrite upd_same|reflexivity|].
        eapply chain_extends; [exact E24|]. eapply chain_extends; eauto. }
      split; [eapply extends_trans; [|eapply extends_trans]; eauto|]. split; [now apply wf_halloc|].
      exists y. split; auto. eapply pair_of_ext; [exact E24|eapply pair_in_of; eauto].
Qed.

(** ** set, then look up *)
Lemma entry_ok_ext h h' x : extends h h' -> entry_ok h x -> entry_ok h' x.
Proof.
  intros E (L&N). split; [eapply live_ext; eauto|]. destruct L as (o&O&L).
  intros c k n Oc Kc Nx. rewrite (proj1 E _ _ O) in Oc. inversion Oc; subst.
  specialize (L c eq_refl). destruct (h_cell h c) as [k0|] eqn:K0; [|congruence].
  rewrite (proj1 (proj2 E) _ _ K0) in Kc. inversion Kc; subst.
  specialize (N _ _ _ O K0 Nx). destruct (h_cell h n) eqn:Kn; [|congruence].
  rewrite (proj1 (proj2 E) _ _ Kn). discriminate.
Qed.
Lemma value_at_ext h h' x : extends h h' -> entry_ok h x -> value_at h' x = value_at h x.
Proof.
  intros E ((o&O&L)&N). unfold value_at. rewrite (proj1 E _ _ O), O. destruct o; auto.
  specialize (L c eq_refl). destruct (h_cell h c) as [k0|] eqn:K0; [|congruence].
  rewrite (proj1 (proj2 E) _ _ K0). destruct (c_next k0) as [n|] eqn:Nx; auto.
  specialize (N _ _ _ O K0 Nx). destruct (h_cell h n) as [kn|] eqn:Kn; [|congruence].
  now rewrite (proj1 (proj2 E) _ _ Kn).
Qed.
Lemma keyed_ext h h' fuel K den : extends h h' -> keyed h (legacy_eq fuel) K den -> keyed h' (legacy_eq fuel) K den.
Proof.
  intros E H a b Ia Ib. now destruct (proj1 (legacy_stable fuel) a b h h' _ _ E (H a b Ia Ib)).
Qed.
Lemma pair_of_key h y k v : pair_of h y k v -> key_at h y = Some k /\ live h y.
Proof.
  intros (c&kc&O&K&D&_). unfold key_at. rewrite O, K. split; [now subst|].
  exists (OList c). split; auto. intros c' Ec. inversion Ec; subst. congruence.
Qed.
Lemma pair_of_value h y k v : (forall c, h_obj h v = Some (OList c) -> h_cell h c <> None) ->
  pair_of h y k v -> entry_ok h y /\ value_at h y = read_back h v.
Proof.
  intros Lv Pr. pose proof (proj2 (pair_of_key _ _ _ _ Pr)) as Ly.
  destruct Pr as (c&kc&O&K&D&N). unfold value_at, read_back. rewrite O, K. split.
  - split; auto. intros c' k' n Oc Kc Nx. rewrite O in Oc. inversion Oc; subst c'. rewrite K in Kc. inversion Kc; subst k'.
    destruct (h_obj h v) as [o|] eqn:Ov; [|tauto].
    destruct o; try (destruct N as (m&N1&N2); congruence); try congruence.
    rewrite Nx in N. inversion N; subst. now apply Lv.
  - destruct (h_obj h v) as [o|] eqn:Ov; [|tauto].
    destruct o; try (destruct N as (m&N1&N2); rewrite N1, N2; reflexivity); now rewrite N.
Qed.
Lemma find_Forall2 (g g' : addr -> bool) xs zs (val val' : addr -> addr) d :
  Forall2 (fun x y => g x = g' y /\ (g x = true -> val x = val' y)) xs zs ->
  match find g xs with Some x => val x | None => d end = match find g' zs with Some x => val' x | None => d end.
Proof.
  induction 1; cbn; auto. destruct H as (H1&H2). rewrite <- H1. destruct (g x); auto.
Qed.
Lemma assoc_set_ref h al k v xs fuel K den : wf h -> is_list h al xs -> (S (length xs) <= fuel)%nat ->
  (forall x, In x xs -> entry_ok h x) -> In k K -> keys_in h xs K -> keyed h (legacy_eq fuel) K den ->
  walkable fuel h v -> (forall c, h_obj h v = Some (OList c) -> h_cell h c <> None) ->
  exists r h', assoc_set fuel al k v h = Ok (r, h') /\ extends h h' /\ wf h' /\
    forall k2, In k2 K ->
      assoc_ref fuel r k2 h' = Ok (if Nat.eqb (den k2) (den k) then read_back h v else lookup h den xs k2, h') /\
      assoc_ref fuel al k2 h' = Ok (lookup h den xs k2, h').
Proof.
  intros W IL L Ev Ik Ki Kd Wk Lv.
  assert (Hp : forall k2, In k2 K -> forall x k', In x xs -> key_at h x = Some k' ->
     legacy_eq fuel k2 k' h = Ok (Nat.eqb (den k2) (den k'), h)).
  { intros k2 I2 x k' Ix Hk. apply Kd; auto. eapply Ki; eauto. }
  destruct (set_prim_ok h (legacy_eq fuel k) (fun k' => Nat.eqb (den k) (den k')) al k v xs fuel) as (r&h'&zs&P&IL'&E&W'&R); auto; try lia.
  { intros; apply legacy_stable. }
  { intros x I. apply Ev; auto. }
  { apply Hp; auto. }
  exists r, h'. split; [exact P|]. split; auto. split; auto.
  assert (RB : read_back h' v = read_back h v).
  { destruct Wk as (o&O&_). unfold read_back. rewrite (proj1 E _ _ O), O. destruct o; auto.
    specialize (Lv _ O). destruct (h_cell h c) eqn:Kc; [|congruence]. now rewrite (proj1 (proj2 E) _ _ Kc). }
  assert (Lv' : forall c, h_obj h' v = Some (OList c) -> h_cell h' c <> None).
  { destruct Wk as (o&O&_). intros c Oc. rewrite (proj1 E _ _ O) in Oc. inversion Oc; subst.
    specialize (Lv _ O). destruct (h_cell h c) eqn:Kc; [|congruence]. rewrite (proj1 (proj2 E) _ _ Kc). discriminate. }
  intros k2 I2. split.
  - assert (G : (exists ys, zs = ys ++ [] /\ (length zs <= fuel)%nat) /\ (forall y, In y zs -> entry_ok h' y) /\ keys_in h' zs K /\
      match find (hit h' (fun k' => Nat.eqb (den k2) (den k'))) zs with Some x => value_at h' x | None => false_a end =
      if Nat.eqb (den k2) (den k) then read_back h v else lookup h den xs k2).
    { assert (HX : forall x, In x xs -> hit h' (fun k' => Nat.eqb (den k2) (den k')) x = hit h (fun k' => Nat.eqb (den k2) (den k')) x)
        by (intros x I; apply hit_ext; auto; apply Ev; auto).
      destruct (existsb (hit h (fun k' => Nat.eqb (den k) (den k'))) xs) eqn:Ex.
      - split; [exists zs; rewrite app_nil_r; split; auto|]. { rewrite <- (Forall2_len _ _ _ R). lia. }
        assert (R' : Forall2 (fun x y => In x xs /\ if hit h (fun k' => Nat.eqb (den k) (den k')) x then pair_of h' y k v else y = x) xs zs).
        { exact (Forall2_In _ _ _ R). }
        split; [|split].
        + intros y Iy. clear -R' Iy Ev E Lv'. induction R' as [|x y' xs' zs' Hxy R' IH]; [destruct Iy|].
          destruct Iy as [->|Iy].
          * destruct Hxy as (Ix&Hxy). destruct (hit _ _ x); [now apply (pair_of_value _ _ _ _ Lv' Hxy)|].
            subst. eapply entry_ok_ext; eauto.
          * apply IH; auto.
        + intros y ky Iy Hky. clear -R' Iy Ev E Ik Ki Hky. induction R' as [|x y' xs' zs' Hxy R' IH]; [destruct Iy|].
          destruct Iy as [->|Iy]; [|apply IH; auto].
          destruct Hxy as (Ix&Hxy). destruct (hit _ _ x).
          * destruct (pair_of_key _ _ _ _ Hxy) as (Q&_). congruence.
          * subst. rewrite (key_at_ext h h') in Hky; auto; [|apply Ev; auto]. eapply Ki; eauto.
        + destruct (Nat.eqb (den k2) (den k)) eqn:Ek.
          * apply Nat.eqb_eq in Ek. clear Hp HX P IL IL' L.
            apply existsb_exists in Ex. destruct Ex as (x0&I0&H0).
            (* the first hit is a replaced pair *)
            assert (Gen : forall xs' zs', Forall2 (fun x y => In x xs /\ if hit h (fun k' => Nat.eqb (den k) (den k')) x then pair_of h' y k v else y = x) xs' zs' ->
               In x0 xs' -> match find (hit h' (fun k' => Nat.eqb (den k2) (den k'))) zs' with Some x => value_at h' x | None => false_a end = read_back h v).
            { induction 1 as [|x y xs' zs' Hxy R0 IH]; intros Ix0; [destruct Ix0|]. cbn [find].
              destruct Hxy as (Ix&Hxy). destruct (hit h (fun k' => Nat.eqb (den k) (den k')) x) eqn:Hh.
              - destruct (pair_of_key _ _ _ _ Hxy) as (Q&_). unfold hit at 1. rewrite Q, Ek, Nat.eqb_refl.
                rewrite (proj2 (pair_of_value _ _ _ _ Lv' Hxy)). exact RB.
              - subst y. rewrite (hit_ext h h') by (auto; apply Ev; auto). rewrite Ek in IH |- *. rewrite Hh.
                apply IH. destruct Ix0; auto. congruence. }
            eapply Gen; eauto.
          * unfold lookup. symmetry. apply find_Forall2.
            eapply Forall2_impl; [|exact R']. cbn. intros x y (Ix&Hxy).
            destruct (hit h (fun k' => Nat.eqb (den k) (den k')) x) eqn:Hh.
            -- destruct (pair_of_key _ _ _ _ Hxy) as (Q&_). unfold hit at 2. rewrite Q, Ek.
               assert (Z : hit h (fun k' => Nat.eqb (den k2) (den k')) x = false).
               { unfold hit in *. destruct (key_at h x); auto. apply Nat.eqb_eq in Hh. rewrite <- Hh. exact Ek. }
               rewrite Z. split; [reflexivity|discriminate].
            -- subst y. rewrite HX by auto. split; auto. intros _. symmetry. apply value_at_ext; auto.
      - destruct R as (y&->&Pr). destruct (pair_of_value _ _ _ _ Lv' Pr) as (Ey&Vy). destruct (pair_of_key _ _ _ _ Pr) as (Q&_).
        split; [exists (y :: xs); rewrite app_nil_r; split; auto|].
        split; [|split].
        + intros z [<-|Iz]; auto. eapply entry_ok_ext; eauto.
        + intros z kz [<-|Iz] Hz; [congruence|]. rewrite (key_at_ext h h') in Hz; auto; [|apply Ev; auto]. eapply Ki; eauto.
        + cbn [find]. unfold hit at 1. rewrite Q. destruct (Nat.eqb (den k2) (den k)); [congruence|].
          unfold lookup. symmetry. apply find_Forall2.
          apply Forall2_refl_in. intros a Ia. rewrite HX by auto. split; auto. intros _. symmetry. apply value_at_ext; auto. }
    destruct G as ((_&_&Lz)&Ez&Kz&G). rewrite <- G.
    apply assoc_ref_ok; auto. intros x k' Ix Hk. apply (keyed_ext h h' fuel K den E Kd); auto. eapply Kz; eauto.
  - unfold lookup.
    rewrite (assoc_ref_ok h' k2 al xs fuel (fun k' => Nat.eqb (den k2) (den k'))); auto.
    + f_equal. f_equal. symmetry. apply find_Forall2.
      apply Forall2_refl_in. intros a Ia. destruct (Ev a Ia) as (La&_).
      rewrite (hit_ext h h') by auto. split; auto. intros _. symmetry. apply value_at_ext; auto.
    + eapply is_list_extends; eauto.
    + lia.
    + intros x Ix. eapply entry_ok_ext; eauto.
    + intros x k' Ix Hk. rewrite (key_at_ext h h') in Hk; auto; [|apply Ev; auto].
      apply (keyed_ext h h' fuel K den E Kd); auto. eapply Ki; eauto.
Qed.

(** ** removal *)
Lemma remove_loop_removed h0 h p l cs xs : chain h0 l cs xs -> wf h0 ->
  forall fuel b ys, (length xs <= fuel)%nat -> binv h0 h b ys ->
  exists b' h', remove_loop fuel p b true l h = Ok (b', h') /\ binv h0 h' b' (ys ++ xs).
Proof.
  intros C W0. revert h. induction C; intros h fuel b ys L B.
  - exists b, h. rewrite app_nil_r. destruct fuel; auto.
  - destruct fuel; cbn [length] in L; [lia|]. cbn [remove_loop].
    assert (K : h_cell h c = Some k) by (now apply B).
    rewrite (bind_ok _ _ _ _ _ (getc_ok _ _ _ K)). rewrite (bind_ok _ _ _ _ _ (eq_refl : ret false h = Ok (false, h))).
    destruct (b_push_ok h0 h b ys (c_data k) W0 B) as (b1&h1&P1&B1&_).
    rewrite (bind_ok _ _ _ _ _ P1). replace (ys ++ c_data k :: xs) with ((ys ++ [c_data k]) ++ xs) by (now rewrite <- app_assoc).
    apply IHC; auto. lia.
Qed.
Lemma remove_loop_ok h0 (p : addr -> M bool) f l cs xs : wf h0 -> chain h0 l cs xs ->
  (forall x, stable (p x)) -> (forall x, In x xs -> live h0 x) ->
  (forall x k', In x xs -> key_at h0 x = Some k' -> p k' h0 = Ok (f k', h0)) ->
  forall fuel h b ys, (length xs <= fuel)%nat -> binv h0 h b ys ->
  exists b' h', remove_loop fuel p b false l h = Ok (b', h') /\ binv h0 h' b' (ys ++ remove_first (hit h0 f) xs).
Proof.
  intros W0 C St. induction C as [|c k0 cs xs K0 D0 C IH]; intros Lv Hp fuel h b ys L B.
  - exists b, h. cbn. rewrite app_nil_r. destruct fuel; auto.
  - destruct fuel; cbn [length] in L; [lia|]. cbn [remove_loop remove_first].
    assert (E0 : extends h0 h) by apply B.
    assert (K : h_cell h c = Some k0) by (now apply E0).
    rewrite (bind_ok _ _ _ _ _ (getc_ok _ _ _ K)).
    assert (Lx : live h0 (c_data k0)) by (apply Lv; now left).
    erewrite bind_ok; [|apply (entry_matches_ok h p f)].
    2:{ eapply live_ext; eauto. }
    2:{ intros k' Hk. rewrite (key_at_ext h0 h) in Hk by auto.
        pose proof (Hp _ _ (or_introl eq_refl) Hk) as P. now destruct (St k' _ _ _ _ E0 P). }
    rewrite (hit_ext h0 h) by auto. destruct (hit h0 f (c_data k0)).
    + eapply remove_loop_removed; eauto. lia.
    + destruct (b_push_ok h0 h b ys (c_data k0) W0 B) as (b1&h1&P1&B1&_).
      rewrite (bind_ok _ _ _ _ _ P1). replace (ys ++ c_data k0 :: remove_first (hit h0 f) xs) with ((ys ++ [c_data k0]) ++ remove_first (hit h0 f) xs) by (now rewrite <- app_assoc).
      apply IH; auto; [| |lia]; intros; [apply Lv; now right|eapply Hp; eauto; now right].
Qed.
Lemma assoc_remove_ok h al k xs fuel f : wf h -> is_list h al xs -> (length xs <= fuel)%nat ->
  (forall x, In x xs -> live h x) ->
  (forall x k', In x xs -> key_at h x = Some k' -> legacy_eq fuel k k' h = Ok (f k', h)) ->
  exists r h', assoc_remove fuel al k h = Ok (r, h') /\ is_list h' r (remove_first (hit h f) xs) /\ extends h h' /\ wf h'.
Proof.
  intros W (cs&[(N&->&->)|(c&O&C)]) L Lv Hp; unfold assoc_remove.
  - rewrite (bind_ok _ _ _ _ _ (get_ok _ _ _ N)). exists nil_a, h. split; [reflexivity|].
    split; [exists []; left; split; auto; apply W|]. split; [apply extends_refl|auto].
  - rewrite (bind_ok _ _ _ _ _ (get_ok _ _ _ O)). cbv iota beta.
    destruct (remove_loop_ok h (legacy_eq fuel k) f (Some c) cs xs W C (fun x => proj1 (legacy_stable fuel) k x) Lv Hp fuel h b_empty [] L (binv_empty _ W)) as (b&h1&P&B).
    rewrite (bind_ok _ _ _ _ _ P). cbn [app] in B.
    destruct (b_wrap_ok h h1 b _ W B) as (r&h'&P2&W'&E'&cs2&LC&_).
    exists r, h'. split; auto. split; [exists cs2; auto|]. auto.
Qed.
