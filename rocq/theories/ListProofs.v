From Coq Require Import Lia.
From Verif Require Import Base NumModel HeapModel EqModel ListModel ListSpec.

Lemma upd_same {A} (f : addr -> option A) a x : upd f a x a = Some x.
Proof. unfold upd. now rewrite Nat.eqb_refl. Qed.
Lemma upd_other {A} (f : addr -> option A) a x b : b <> a -> upd f a x b = f b.
Proof. unfold upd. intros. destruct (Nat.eqb_spec b a); congruence. Qed.

Lemma bind_ok {A B} (m : M A) (f : A -> M B) h a h' :
  m h = Ok (a, h') -> mbind m f h = f a h'.
Proof. unfold mbind. now intros ->. Qed.
Lemma get_ok a h o : h_obj h a = Some o -> get a h = Ok (o, h).
Proof. unfold get. now intros ->. Qed.
Lemma getc_ok c h k : h_cell h c = Some k -> getc c h = Ok (k, h).
Proof. unfold getc. now intros ->. Qed.

Ltac mstep :=
  first [ erewrite bind_ok by (first [ apply get_ok; eassumption | apply getc_ok; eassumption | reflexivity ]) ].

(** extends *)
Lemma extends_refl h : extends h h.
Proof. split; [|split]; auto. Qed.
Lemma extends_trans a b c : extends a b -> extends b c -> extends a c.
Proof. intros (A1&A2&A3) (B1&B2&B3). split; [|split]; eauto. lia. Qed.
Lemma chain_extends h h' l cs xs : extends h h' -> chain h l cs xs -> chain h' l cs xs.
Proof.
  intros (E1&E2&_) C. induction C; constructor; auto.
Qed.
Lemma dchain_extends h h' l cs xs d : extends h h' -> dchain h l cs xs d -> dchain h' l cs xs d.
Proof.
  intros (E1&E2&_) C. induction C; constructor; auto.
Qed.
Lemma is_list_extends h h' a xs : extends h h' -> is_list h a xs -> is_list h' a xs.
Proof.
  intros E (cs&[(N&->&->)|(c&O&C)]).
  - exists []. left. split; auto. now apply E.
  - exists cs. right. exists c. split; [now apply E|eapply chain_extends; eauto].
Qed.
Lemma is_dotted_extends h h' a xs d : extends h h' -> is_dotted_list h a xs d -> is_dotted_list h' a xs d.
Proof.
  intros E (c&cs&O&N&C). exists c, cs. split; [now apply E|]. split; auto. eapply dchain_extends; eauto.
Qed.

(** allocation *)
Definition halloc (h : heap) (o : obj) : heap :=
  mkHeap (upd (h_obj h) (h_next h) o) (h_cell h) (S (h_next h)).
Definition hallocc (h : heap) (k : cell) : heap :=
  mkHeap (h_obj h) (upd (h_cell h) (h_next h) k) (S (h_next h)).
Definition hsetc (h : heap) (c : addr) (k : cell) : heap :=
  mkHeap (h_obj h) (upd (h_cell h) c k) (h_next h).

Lemma alloc_eq o h : alloc o h = Ok (h_next h, halloc h o).
Proof. reflexivity. Qed.
Lemma allocc_eq k h : alloc_cell k h = Ok (h_next h, hallocc h k).
Proof. reflexivity. Qed.

Lemma wf_next h : wf h -> (true_a < h_next h)%nat.
Proof.
  intros (F&_&_&_&T). destruct (Nat.lt_ge_cases true_a (h_next h)); auto.
  destruct (F _ H). congruence.
Qed.
Lemma wf_obj_lt h a o : wf h -> h_obj h a = Some o -> (a < h_next h)%nat.
Proof.
  intros (F&_) O. destruct (Nat.lt_ge_cases a (h_next h)); auto.
  destruct (F _ H). congruence.
Qed.
Lemma wf_cell_lt h a o : wf h -> h_cell h a = Some o -> (a < h_next h)%nat.
Proof.
  intros (F&_) O. destruct (Nat.lt_ge_cases a (h_next h)); auto.
  destruct (F _ H). congruence.
Qed.
Lemma wf_fresh_cell h : wf h -> h_cell h (h_next h) = None.
Proof. intros (F&_). apply F. lia. Qed.

Lemma wf_halloc h o : wf h -> wf (halloc h o).
Proof.
  intros W. pose proof (wf_next _ W) as L. destruct W as (F&W0&W1&W2&W3).
  unfold true_a in L.
  split; [|repeat split]; cbn.
  - intros a Ha. destruct (F a) as [A B]; [lia|]. rewrite upd_other by lia. auto.
  - rewrite upd_other; auto; unfold none_a; lia.
  - rewrite upd_other; auto; unfold nil_a; lia.
  - rewrite upd_other; auto; unfold false_a; lia.
  - rewrite upd_other; auto; unfold true_a; lia.
Qed.
Lemma wf_hallocc h o : wf h -> wf (hallocc h o).
Proof.
  intros W. destruct W as (F&W0&W1&W2&W3).
  split; [|repeat split]; cbn; auto.
  intros a Ha. destruct (F a) as [A B]; [lia|]. rewrite upd_other by lia. auto.
Qed.
Lemma wf_hsetc h c k k0 : wf h -> h_cell h c = Some k0 -> wf (hsetc h c k).
Proof.
  intros W K. pose proof (wf_cell_lt _ _ _ W K). destruct W as (F&W0&W1&W2&W3).
  split; [|repeat split]; cbn; auto.
  intros a Ha. destruct (F a) as [A B]; [lia|]. rewrite upd_other by lia. auto.
Qed.
Lemma extends_halloc h o : wf h -> extends h (halloc h o).
Proof.
  intros W. split; [|split]; cbn; auto.
  intros a o' H. rewrite upd_other; auto. apply (wf_obj_lt _ _ _ W) in H. lia.
Qed.
Lemma extends_hallocc h o : wf h -> extends h (hallocc h o).
Proof.
  intros W. split; [|split]; cbn; auto.
  intros a o' H. rewrite upd_other; auto. apply (wf_cell_lt _ _ _ W) in H. lia.
Qed.

Lemma chain_cells_alloc h l cs xs c : chain h l cs xs -> In c cs -> exists k, h_cell h c = Some k.
Proof.
  induction 1; cbn; [tauto|]. intros [->|I]; eauto.
Qed.
Lemma chain_len h l cs xs : chain h l cs xs -> length cs = length xs.
Proof. induction 1; cbn; congruence. Qed.
Lemma dchain_len h l cs xs d : dchain h l cs xs d -> length cs = S (length xs).
Proof. induction 1; cbn; congruence. Qed.
Lemma chain_fun h l cs xs : chain h l cs xs -> forall cs' xs', chain h l cs' xs' -> cs' = cs /\ xs' = xs.
Proof.
  induction 1; intros cs' xs' C; inversion C; subst; auto.
  replace k0 with k in * by congruence.
  destruct (IHchain _ _ H5) as [-> ->]. auto.
Qed.
Lemma chain_suffix h l cs xs c : chain h l cs xs -> In c cs ->
  exists cs1 cs2 xs1 xs2, cs = cs1 ++ c :: cs2 /\ xs = xs1 ++ xs2 /\ length xs1 = length cs1 /\
    chain h (Some c) (c :: cs2) xs2.
Proof.
  induction 1; cbn; [tauto|]. intros [->|I].
  - exists [], cs, [], (c_data k :: xs). repeat split; auto. econstructor; eauto.
  - destruct (IHchain I) as (a&b&d&e&->&->&L&Hc).
    exists (c0 :: a), b, (c_data k :: d), e. cbn. repeat split; auto.
Qed.
Lemma chain_nodup h l cs xs : chain h l cs xs -> NoDup cs.
Proof.
  induction 1; constructor; auto.
  intros I. destruct (chain_suffix _ _ _ _ _ H1 I) as (a&b&d&e&E1&E2&L&Hc).
  assert (Hx : chain h (Some c) (c :: cs) (c_data k :: xs)) by (econstructor; eauto).
  destruct (chain_fun _ _ _ _ Hx _ _ Hc) as [E3 _].
  inversion E3. subst b. assert (length cs = length (a ++ c :: cs)) by congruence.
  rewrite app_length in H2. cbn in H2. lia.
Qed.

Lemma chain_inv_some h c cs xs : chain h (Some c) cs xs ->
  exists k cs' xs', h_cell h c = Some k /\ c_dotted k = false /\ chain h (c_next k) cs' xs' /\
    cs = c :: cs' /\ xs = c_data k :: xs'.
Proof. intros C. inversion C; subst. exists k, cs0, xs0. auto. Qed.
Lemma chain_inv_none h cs xs : chain h None cs xs -> cs = [] /\ xs = [].
Proof. intros C. now inversion C. Qed.
Lemma chain_inv_nil h l xs : chain h l [] xs -> l = None /\ xs = [].
Proof. intros C. now inversion C. Qed.
Lemma chain_inv_cell h l c cs xs : chain h l (c :: cs) xs ->
  exists k xs', l = Some c /\ h_cell h c = Some k /\ c_dotted k = false /\ chain h (c_next k) cs xs' /\
    xs = c_data k :: xs'.
Proof. intros C. inversion C; subst. exists k, xs0. auto. Qed.

(** a chain that avoids [c] does not notice a write to [c] *)
Lemma chain_hsetc_other h l cs xs c k : chain h l cs xs -> ~ In c cs -> chain (hsetc h c k) l cs xs.
Proof.
  induction 1; intros NI; [constructor|].
  constructor; auto.
  - cbn. rewrite upd_other; auto. intros ->. apply NI. now left.
  - apply IHchain. intros I. apply NI. now right.
Qed.
(** extending a chain at its last cell *)
Lemma chain_snoc h l cs t xs n x k :
  chain h l (cs ++ [t]) xs -> h_cell h t = Some k -> h_cell h n = Some (mkCell x None false) ->
  ~ In n (cs ++ [t]) ->
  chain (hsetc h t (mkCell (c_data k) (Some n) (c_dotted k))) l (cs ++ [t] ++ [n]) (xs ++ [x]).
Proof.
  revert l xs. induction cs as [|c cs IH]; cbn; intros l xs C K N NI.
  - destruct (chain_inv_cell _ _ _ _ _ C) as (k0&xs'&->&K0&D&C'&->).
    destruct (chain_inv_nil _ _ _ C') as [Nx ->]. replace k0 with k in * by congruence. clear k0.
    cbn. set (k' := mkCell (c_data k) (Some n) (c_dotted k)).
    change (c_data k) with (c_data k'). econstructor.
    + cbn. now rewrite upd_same.
    + auto.
    + cbn. apply (chain_cons _ n (mkCell x None false) [] []); auto.
      * cbn. rewrite upd_other; auto.
      * constructor.
  - pose proof (chain_nodup _ _ _ _ C) as ND. inversion ND as [|? ? H1 H2]; subst.
    destruct (chain_inv_cell _ _ _ _ _ C) as (k0&xs'&->&K0&D&C'&->). cbn.
    econstructor; eauto.
    + cbn. rewrite upd_other; auto. intros ->. apply H1. apply in_or_app. right. now left.
Qed.

(** builder invariant: [b] holds the elements [xs] in cells that did not exist in [h0] *)
Definition binv (h0 h : heap) (b : builder) (xs : list addr) : Prop :=
  wf h /\ extends h0 h /\
  exists cs, chain h (b_first b) cs xs /\ Forall (fresh_for h0) cs /\
    (match b_tail b with None => cs = [] | Some t => exists cs', cs = cs' ++ [t] end).

Lemma binv_empty h0 : wf h0 -> binv h0 h0 b_empty [].
Proof.
  intros W. split; auto. split; [apply extends_refl|].
  exists []. repeat split; cbn; auto; constructor.
Qed.
Lemma extends_setc_fresh h0 h c k : extends h0 h -> fresh_for h0 c -> extends h0 (hsetc h c k).
Proof.
  intros (E1&E2&E3) F. split; [|split]; cbn; auto.
  intros a k' H. rewrite upd_other; auto. intros ->. red in F. congruence.
Qed.
Lemma fresh_next h0 h : wf h0 -> extends h0 h -> fresh_for h0 (h_next h).
Proof.
  intros (F&_) (_&_&L). red. apply F. lia.
Qed.
Lemma b_push_ok h0 h b xs x : wf h0 -> binv h0 h b xs ->
  exists b' h', b_push b x h = Ok (b', h') /\ binv h0 h' b' (xs ++ [x]) /\ h_obj h' = h_obj h.
Proof.
  intros W0 (W&E&cs&C&F&T). unfold b_push.
  rewrite (bind_ok _ _ _ _ _ (allocc_eq _ h)).
  set (n := h_next h). set (h1 := hallocc h (mkCell x None false)).
  assert (W1 : wf h1) by now apply wf_hallocc.
  assert (E1 : extends h h1) by now apply extends_hallocc.
  assert (Nn : h_cell h1 n = Some (mkCell x None false)) by (cbn; now rewrite upd_same).
  assert (Fn : fresh_for h0 n) by now apply fresh_next.
  destruct (b_tail b) as [t|].
  - destruct T as (cs'&->).
    destruct (chain_cells_alloc _ _ _ _ t C) as [k K]; [apply in_or_app; right; now left|].
    assert (K1 : h_cell h1 t = Some k) by now apply E1.
    rewrite (bind_ok _ _ _ _ _ (getc_ok _ _ _ K1)).
    erewrite bind_ok; [|unfold setc; rewrite K1; reflexivity].
    fold (hsetc h1 t (mkCell (c_data k) (Some n) (c_dotted k))).
    exists (mkB (b_first b) (Some n)). eexists. split; [reflexivity|]. split; [|reflexivity].
    assert (Ft : fresh_for h0 t).
    { rewrite Forall_forall in F. apply F. apply in_or_app. right; now left. }
    split; [eapply wf_hsetc; eauto|]. split.
    + apply extends_setc_fresh; auto. eapply extends_trans; eauto.
    + exists (cs' ++ [t] ++ [n]). split; [|split].
      * cbn [b_first]. eapply chain_snoc; eauto.
        -- eapply chain_extends; eauto.
        -- intros I. destruct (chain_cells_alloc _ _ _ _ _ C I) as [k' K'].
           apply (wf_cell_lt _ _ _ W) in K'. unfold n in K'. lia.
      * rewrite app_assoc. apply Forall_app. split; auto.
      * cbn. exists (cs' ++ [t]). now rewrite <- app_assoc.
  - subst cs. inversion C as [CE| ]; subst.
    exists (mkB (Some n) (Some n)), h1. split; [reflexivity|]. split; [|reflexivity].
    split; auto. split; [eapply extends_trans; eauto|].
    exists [n]. split; [|split].
    + cbn. apply (chain_cons _ n (mkCell x None false) [] []); auto. constructor.
    + constructor; auto.
    + cbn. exists []. reflexivity.
Qed.
Lemma wrap_some h c : wrap (Some c) h = Ok (h_next h, halloc h (OList c)).
Proof. reflexivity. Qed.

(** wrapping a finished builder *)
Lemma b_wrap_ok h0 h b xs : wf h0 -> binv h0 h b xs ->
  exists r h', wrap (b_first b) h = Ok (r, h') /\ wf h' /\ extends h0 h' /\
    exists cs, list_cells h' r cs xs /\ Forall (fresh_for h0) cs.
Proof.
  intros W0 (W&E&cs&C&F&T). destruct (b_first b) as [c|] eqn:B.
  - rewrite wrap_some. exists (h_next h), (halloc h (OList c)).
    pose proof (extends_halloc h (OList c) W) as EE.
    split; auto. split; [now apply wf_halloc|]. split; [eapply extends_trans; eauto|].
    exists cs. split; auto. right. exists c. split; [cbn; now rewrite upd_same|].
    eapply chain_extends; eauto.
  - inversion C; subst. exists nil_a, h. split; auto. split; auto. split; auto.
    exists []. split; auto. left. split; auto. apply W.
Qed.

(** list *)
Lemma b_push_all_ok h0 args : forall h b xs, wf h0 -> binv h0 h b xs ->
  exists b' h', b_push_all b args h = Ok (b', h') /\ binv h0 h' b' (xs ++ args).
Proof.
  induction args as [|a r IH]; intros h b xs W0 B; cbn.
  - exists b, h. rewrite app_nil_r. auto.
  - destruct (b_push_ok _ _ _ _ a W0 B) as (b1&h1&P&B1&_).
    rewrite (bind_ok _ _ _ _ _ P).
    destruct (IH _ _ _ W0 B1) as (b2&h2&P2&B2). exists b2, h2. rewrite <- app_assoc in B2. auto.
Qed.
Lemma scm_list_ok h args : wf h ->
  exists r h', scm_list args h = Ok (r, h') /\ wf h' /\ extends h h' /\
    exists cs, list_cells h' r cs args /\ Forall (fresh_for h) cs.
Proof.
  intros W. unfold scm_list.
  destruct (b_push_all_ok h args h b_empty [] W (binv_empty _ W)) as (b&h1&P&B).
  rewrite (bind_ok _ _ _ _ _ P). now apply b_wrap_ok.
Qed.

(** length *)
Lemma length_loop_ok h l cs xs : chain h l cs xs -> forall fuel n, (length xs <= fuel)%nat ->
  length_loop fuel n l h = Ok (n + Z.of_nat (length xs), h).
Proof.
  induction 1; intros fuel n L; cbn [length] in *.
  - destruct fuel; cbn; unfold ret; f_equal; f_equal; lia.
  - destruct fuel; [lia|]. cbn [length_loop]. rewrite (bind_ok _ _ _ _ _ (getc_ok _ _ _ H)).
    rewrite IHchain by lia. f_equal; f_equal; lia.
Qed.
Lemma length_ok h a xs fuel : wf h -> is_list h a xs -> (length xs <= fuel)%nat ->
  exists r h', length_prim fuel a h = Ok (r, h') /\
    h_obj h' r = Some (ONum (Z.of_nat (length xs))) /\ extends h h' /\ wf h'.
Proof.
  intros W (cs&[(N&->&->)|(c&O&C)]) L; unfold length_prim.
  - rewrite (bind_ok _ _ _ _ _ (get_ok _ _ _ N)). cbv iota beta. rewrite alloc_eq.
    do 2 eexists. split; [reflexivity|]. split; [cbn; now rewrite upd_same|].
    split; [now apply extends_halloc|now apply wf_halloc].
  - rewrite (bind_ok _ _ _ _ _ (get_ok _ _ _ O)). cbv iota beta.
    rewrite (bind_ok _ _ _ _ _ (length_loop_ok _ _ _ _ C fuel 0 L)). rewrite alloc_eq.
    do 2 eexists. split; [reflexivity|]. split; [cbn; now rewrite upd_same|].
    split; [now apply extends_halloc|now apply wf_halloc].
Qed.
Lemma length_nonlist h a o fuel : h_obj h a = Some o ->
  (forall c, o <> OList c) -> o <> ONil -> length_prim fuel a h = Err.
Proof.
  intros O N1 N2. unfold length_prim. rewrite (bind_ok _ _ _ _ _ (get_ok _ _ _ O)).
  destruct o; try reflexivity; congruence.
Qed.
(* the dotted tail of (x1 ... xn . d) is counted as an element *)
Lemma length_loop_dotted h l cs xs d : dchain h l cs xs d -> forall fuel n, (S (length xs) <= fuel)%nat ->
  length_loop fuel n l h = Ok (n + Z.of_nat (S (length xs)), h).
Proof.
  induction 1; intros fuel n L; cbn [length] in *.
  - destruct fuel; [lia|]. cbn [length_loop]. rewrite (bind_ok _ _ _ _ _ (getc_ok _ _ _ H)).
    rewrite H1. destruct fuel; cbn; unfold ret; f_equal; f_equal; lia.
  - destruct fuel; [lia|]. cbn [length_loop]. rewrite (bind_ok _ _ _ _ _ (getc_ok _ _ _ H)).
    rewrite IHdchain by lia. f_equal; f_equal; lia.
Qed.
Lemma length_dotted h a xs d fuel : wf h -> is_dotted_list h a xs d -> (S (length xs) <= fuel)%nat ->
  exists r h', length_prim fuel a h = Ok (r, h') /\
    h_obj h' r = Some (ONum (Z.of_nat (S (length xs)))).
Proof.
  intros W (c&cs&O&N&C) L. unfold length_prim.
  rewrite (bind_ok _ _ _ _ _ (get_ok _ _ _ O)). cbv iota beta.
  rewrite (bind_ok _ _ _ _ _ (length_loop_dotted _ _ _ _ _ C fuel 0 L)). rewrite alloc_eq.
  do 2 eexists. split; [reflexivity|]. cbn. now rewrite upd_same.
Qed.
(* never terminates on a circular list *)
Lemma length_loop_circular h fuel : forall c n, circular h c -> length_loop fuel n (Some c) h = Fuel.
Proof.
  induction fuel as [|f IH]; intros c n (S&Sc&SS); [reflexivity|].
  destruct (SS _ Sc) as (k&m&K&_&Nx&Sm). cbn [length_loop].
  rewrite (bind_ok _ _ _ _ _ (getc_ok _ _ _ K)). rewrite Nx. apply IH. exists S. auto.
Qed.

(** copy_loop *)
Lemma copy_loop_ok h0 h l cs xs : chain h0 l cs xs -> wf h0 ->
  forall fuel b ys, (length xs <= fuel)%nat -> binv h0 h b ys ->
  exists b' h', copy_loop fuel b l h = Ok (b', h') /\ binv h0 h' b' (ys ++ xs).
Proof.
  intros C W0. revert h. induction C; intros h fuel b ys L B.
  - exists b, h. rewrite app_nil_r. destruct fuel; auto.
  - destruct fuel; cbn [length] in L; [lia|]. cbn [copy_loop].
    assert (K : h_cell h c = Some k) by (destruct B as (_&(_&E&_)&_); auto).
    rewrite (bind_ok _ _ _ _ _ (getc_ok _ _ _ K)).
    destruct (b_push_ok _ _ _ _ (c_data k) W0 B) as (b1&h1&P&B1&_).
    rewrite (bind_ok _ _ _ _ _ P).
    destruct (IHC h1 fuel b1 _ ltac:(lia) B1) as (b2&h2&P2&B2).
    exists b2, h2. rewrite <- app_assoc in B2. auto.
Qed.

(** last_cell *)
Lemma last_cell_ok h l cs xs : chain h l cs xs -> forall c fuel, l = Some c -> (length xs <= fuel)%nat ->
  exists t k cs', last_cell fuel c h = Ok (t, h) /\ h_cell h t = Some k /\ c_dotted k = false /\ cs = cs' ++ [t].
Proof.
  induction 1; intros c0 fuel E L; [discriminate|]. inversion E; subst c0.
  cbn [length] in L. destruct fuel; [lia|]. cbn [last_cell].
  rewrite (bind_ok _ _ _ _ _ (getc_ok _ _ _ H)).
  destruct (c_next k) as [n|] eqn:N.
  - destruct (IHchain n fuel eq_refl ltac:(lia)) as (t&k'&cs'&P&K&D&->).
    exists t, k', (c :: cs'). auto.
  - inversion H1; subst. exists c, k, []. auto.
Qed.
Lemma last_cell_dotted h l cs xs d : dchain h l cs xs d -> forall c fuel, l = Some c -> (S (length xs) <= fuel)%nat ->
  exists t k, last_cell fuel c h = Ok (t, h) /\ h_cell h t = Some k /\ c_dotted k = true /\ c_data k = d.
Proof.
  induction 1; intros c0 fuel E L; inversion E; subst c0.
  - cbn [length] in L. destruct fuel; [lia|]. cbn [last_cell].
    rewrite (bind_ok _ _ _ _ _ (getc_ok _ _ _ H)). rewrite H1. exists c, k. auto.
  - cbn [length] in L. destruct fuel; [lia|]. cbn [last_cell].
    rewrite (bind_ok _ _ _ _ _ (getc_ok _ _ _ H)).
    destruct (c_next k) as [n|] eqn:N; [|inversion H1].
    destruct (IHdchain n fuel eq_refl ltac:(lia)) as (t&k'&P&K&D&E').
    exists t, k'. auto.
Qed.
Lemma last_cell_circular h fuel : forall c, circular h c -> last_cell fuel c h = Fuel.
Proof.
  induction fuel as [|f IH]; intros c (S&Sc&SS); [reflexivity|].
  destruct (SS _ Sc) as (k&m&K&_&Nx&Sm). cbn [last_cell].
  rewrite (bind_ok _ _ _ _ _ (getc_ok _ _ _ K)). rewrite Nx. apply IH. exists S. auto.
Qed.

(** append *)
Lemma last_dotted_cdr_proper h a xs fuel : is_list h a xs -> (length xs <= fuel)%nat ->
  last_dotted_cdr fuel a h = Ok (None, h).
Proof.
  intros (cs&[(N&->&->)|(c&O&C)]) L; unfold last_dotted_cdr.
  - rewrite (bind_ok _ _ _ _ _ (get_ok _ _ _ N)). reflexivity.
  - rewrite (bind_ok _ _ _ _ _ (get_ok _ _ _ O)). cbv iota beta.
    assert (P : is_dotted_pair fuel c h = Ok (false, h)).
    { unfold is_dotted_pair. destruct (chain_inv_some _ _ _ _ C) as (k&cs'&xs'&K&D&C'&E1&E2).
      rewrite (bind_ok _ _ _ _ _ (getc_ok _ _ _ K)).
      destruct (c_next k) as [n|] eqn:Nx; [|reflexivity].
      destruct (last_cell_ok _ _ _ _ C c fuel eq_refl L) as (t&kt&cs2&P&K2&D2&_).
      rewrite (bind_ok _ _ _ _ _ P). rewrite (bind_ok _ _ _ _ _ (getc_ok _ _ _ K2)).
      rewrite D2. reflexivity. }
    rewrite (bind_ok _ _ _ _ _ P). reflexivity.
Qed.
Lemma append_arg_ok h0 h a xs b ys fuel : wf h0 -> is_list h0 a xs -> (length xs <= fuel)%nat -> binv h0 h b ys ->
  exists b' h', append_arg fuel b false a h = Ok (b', h') /\ binv h0 h' b' (ys ++ xs).
Proof.
  intros W (cs&[(N&->&->)|(c&O&C)]) L B; unfold append_arg.
  - assert (N' : h_obj h a = Some ONil) by (destruct B as (_&(E&_)&_); auto).
    rewrite (bind_ok _ _ _ _ _ (get_ok _ _ _ N')). exists b, h. rewrite app_nil_r. auto.
  - assert (O' : h_obj h a = Some (OList c)) by (destruct B as (_&(E&_)&_); auto).
    rewrite (bind_ok _ _ _ _ _ (get_ok _ _ _ O')). cbv iota beta.
    eapply copy_loop_ok; eauto.
Qed.
Lemma append_args_ok h0 fuel args : forall xss h b ys, wf h0 -> Forall2 (is_list h0) args xss ->
  (length (concat xss) <= fuel)%nat -> binv h0 h b ys ->
  exists b' h', append_args fuel b false args h = Ok (b', h') /\ binv h0 h' b' (ys ++ concat xss).
Proof.
  induction args as [|a r IH]; intros xss h b ys W F L B; inversion F; subst; cbn [append_args concat].
  - exists b, h. rewrite app_nil_r. auto.
  - cbn [concat] in L. rewrite app_length in L.
    replace (match r with [] => false | _ => false end) with false by (destruct r; auto).
    destruct (append_arg_ok h0 h a y b ys fuel W H1 ltac:(lia) B) as (b1&h1&P&B1).
    rewrite (bind_ok _ _ _ _ _ P).
    destruct (IH _ _ _ _ W H3 ltac:(lia) B1) as (b2&h2&P2&B2).
    exists b2, h2. rewrite <- app_assoc in B2. auto.
Qed.
Lemma Forall2_last_list h args xss : wf h -> Forall2 (is_list h) args xss ->
  is_list h (last args nil_a) (last xss []).
Proof.
  intros W. induction 1; cbn.
  - exists []. left. split; auto. apply W.
  - destruct l, l'; inversion H0; subst; auto.
Qed.
Lemma last_len_concat (xss : list (list addr)) : (length (last xss []) <= length (concat xss))%nat.
Proof.
  induction xss as [|x r IH]; cbn; auto. rewrite app_length. destruct r; cbn in *; lia.
Qed.
Lemma append_general_ok h args xss fuel : wf h -> Forall2 (is_list h) args xss ->
  (length (concat xss) <= fuel)%nat ->
  exists r h', append_general fuel args h = Ok (r, h') /\ is_list h' r (concat xss) /\ extends h h' /\ wf h'.
Proof.
  intros W F L. unfold append_general.
  pose proof (last_len_concat xss).
  rewrite (bind_ok _ _ _ _ _ (last_dotted_cdr_proper _ _ _ fuel (Forall2_last_list _ _ _ W F) ltac:(lia))).
  cbv iota beta.
  destruct (append_args_ok h fuel args xss h b_empty [] W F L (binv_empty _ W)) as (b&h1&P&B).
  rewrite (bind_ok _ _ _ _ _ P). erewrite bind_ok by reflexivity.
  destruct (b_wrap_ok _ _ _ _ W B) as (r&h2&P2&W2&E2&cs&Q&_).
  exists r, h2. split; [exact P2|]. split; [exists cs; auto|split; auto].
Qed.
Lemma append_ok h args xss fuel : wf h -> Forall2 (is_list h) args xss ->
  (length (concat xss) <= fuel)%nat ->
  exists r h', append fuel args h = Ok (r, h') /\ is_list h' r (concat xss) /\ extends h h' /\ wf h'.
Proof.
  intros W F L. unfold append.
  destruct F as [|a xs args xss Ha F].
  - exists nil_a, h. split; auto. split; [|split; auto using extends_refl].
    exists []. left. split; auto. apply W.
  - destruct F as [|a2 xs2 args xss Ha2 F].
    + exists a, h. cbn. rewrite app_nil_r. split; [reflexivity|]. split; [auto|split; auto using extends_refl].
    + assert (FF : Forall2 (is_list h) (a :: a2 :: args) (xs :: xs2 :: xss)) by (constructor; auto).
      destruct F as [|a3 xs3 args xss Ha3 F]; [|apply (append_general_ok _ _ _ _ W FF L)].
      destruct Ha as (cs&[(N&->&->)|(c&O&C)]).
      * rewrite (bind_ok _ _ _ _ _ (get_ok _ _ _ N)).
        exists a2, h. cbn. rewrite app_nil_r. split; [reflexivity|]. split; [auto|split; auto using extends_refl].
      * rewrite (bind_ok _ _ _ _ _ (get_ok _ _ _ O)). apply (append_general_ok _ _ _ _ W FF L).
Qed.
(* two proper lists then an improper one of exactly one car: result is improper *)

(** reverse *)
Lemma reverse_loop_ok h0 h l cs xs : chain h0 l cs xs -> wf h0 ->
  forall fuel r rcs ys, (length xs <= fuel)%nat -> wf h -> extends h0 h ->
  chain h r rcs ys -> Forall (fresh_for h0) rcs ->
  exists r' h' rcs', reverse_loop fuel r l h = Ok (r', h') /\ wf h' /\ extends h0 h' /\
    chain h' r' rcs' (rev xs ++ ys) /\ Forall (fresh_for h0) rcs'.
Proof.
  intros C W0. revert h. induction C; intros h fuel r rcs ys L W E Cr Fr.
  - exists r, h, rcs. destruct fuel; cbn; auto.
  - destruct fuel; cbn [length] in L; [lia|]. cbn [reverse_loop].
    assert (K : h_cell h c = Some k) by (destruct E as (_&E&_); auto).
    rewrite (bind_ok _ _ _ _ _ (getc_ok _ _ _ K)).
    rewrite (bind_ok _ _ _ _ _ (allocc_eq _ _)).
    set (nk := mkCell (c_data k) r false).
    destruct (IHC (hallocc h nk) fuel (Some (h_next h)) (h_next h :: rcs) (c_data k :: ys))
      as (r'&h'&rcs'&P&W'&E'&C'&F').
    + lia.
    + now apply wf_hallocc.
    + eapply extends_trans; eauto. now apply extends_hallocc.
    + apply (chain_cons _ _ nk).
      * cbn. now rewrite upd_same.
      * reflexivity.
      * cbn. eapply chain_extends; eauto. now apply extends_hallocc.
    + constructor; auto. now apply fresh_next.
    + exists r', h', rcs'. split; auto. split; auto. split; auto. split; auto.
      cbn [rev]. rewrite <- app_assoc. auto.
Qed.
Lemma reverse_ok h a xs fuel : wf h -> is_list h a xs -> (length xs <= fuel)%nat ->
  exists r h' cs, reverse fuel a h = Ok (r, h') /\ list_cells h' r cs (rev xs) /\
    Forall (fresh_for h) cs /\ extends h h' /\ wf h'.
Proof.
  intros W (cs&[(N&->&->)|(c&O&C)]) L; unfold reverse.
  - rewrite (bind_ok _ _ _ _ _ (get_ok _ _ _ N)).
    exists nil_a, h, []. split; auto. split; [left; split; auto; apply W|]. split; auto.
    split; auto using extends_refl.
  - rewrite (bind_ok _ _ _ _ _ (get_ok _ _ _ O)). cbv iota beta.
    destruct (reverse_loop_ok h h _ _ _ C W fuel None [] [] L W (extends_refl h) (chain_nil _) ltac:(constructor))
      as (r'&h'&rcs'&P&W'&E'&C'&F').
    rewrite (bind_ok _ _ _ _ _ P). rewrite app_nil_r in C'.
    destruct r' as [c'|].
    + rewrite wrap_some. exists (h_next h'), (halloc h' (OList c')), rcs'.
      split; auto. split; [right; exists c'; split; [cbn; now rewrite upd_same|]|].
      * eapply chain_extends; eauto. now apply extends_halloc.
      * split; auto. split; [|now apply wf_halloc].
        eapply extends_trans; eauto. now apply extends_halloc.
    + inversion C'; subst. exists nil_a, h', [].
      split; [reflexivity|]. split; [left; repeat split; auto; apply W'|]. split; auto.
Qed.

(** list-ref *)
Lemma ref_loop_in h l cs xs : chain h l cs xs -> forall fuel i idx, (length xs <= fuel)%nat ->
  i <= idx < i + Z.of_nat (length xs) ->
  exists x, ref_loop fuel i idx l h = Ok (x, h) /\ nth_error xs (Z.to_nat (idx - i)) = Some x.
Proof.
  induction 1; intros fuel i idx L R; cbn [length] in *; [lia|].
  destruct fuel; [lia|]. cbn [ref_loop]. rewrite (bind_ok _ _ _ _ _ (getc_ok _ _ _ H)).
  destruct (Z.eqb_spec i idx) as [->|N].
  - exists (c_data k). replace (idx - idx) with 0 by lia. auto.
  - destruct (IHchain fuel (i + 1) idx ltac:(lia) ltac:(lia)) as (x&P&Q).
    exists x. split; auto. replace (Z.to_nat (idx - i)) with (S (Z.to_nat (idx - (i + 1)))) by lia. auto.
Qed.
Lemma ref_loop_out h l cs xs : chain h l cs xs -> forall fuel i idx, (length xs <= fuel)%nat ->
  i + Z.of_nat (length xs) <= idx -> ref_loop fuel i idx l h = Err.
Proof.
  induction 1; intros fuel i idx L R; cbn [length] in *.
  - destruct fuel; reflexivity.
  - destruct fuel; [lia|]. cbn [ref_loop]. rewrite (bind_ok _ _ _ _ _ (getc_ok _ _ _ H)).
    destruct (Z.eqb_spec i idx) as [->|N]; [lia|]. apply IHchain; lia.
Qed.
Lemma list_ref_in h a k xs z fuel : is_list h a xs -> h_obj h k = Some (ONum z) ->
  (length xs <= fuel)%nat -> 0 <= z < Z.of_nat (length xs) ->
  exists x, list_ref fuel a k h = Ok (x, h) /\ nth_error xs (Z.to_nat z) = Some x.
Proof.
  intros (cs&[(N&->&->)|(c&O&C)]) K L R; unfold list_ref; [cbn in R; lia|].
  rewrite (bind_ok _ _ _ _ _ (get_ok _ _ _ O)). cbv iota beta.
  rewrite (bind_ok _ _ _ _ _ (get_ok _ _ _ K)).
  destruct (Z.ltb_spec z 0); [lia|].
  destruct (ref_loop_in _ _ _ _ C fuel 0 z L ltac:(lia)) as (x&P&Q).
  exists x. rewrite Z.sub_0_r in Q. auto.
Qed.
Lemma list_ref_out h a k xs z fuel : is_list h a xs -> h_obj h k = Some (ONum z) ->
  (length xs <= fuel)%nat -> ~ (0 <= z < Z.of_nat (length xs)) ->
  list_ref fuel a k h = Err.
Proof.
  intros (cs&[(N&->&->)|(c&O&C)]) K L R; unfold list_ref.
  - now rewrite (bind_ok _ _ _ _ _ (get_ok _ _ _ N)).
  - rewrite (bind_ok _ _ _ _ _ (get_ok _ _ _ O)). cbv iota beta.
    rewrite (bind_ok _ _ _ _ _ (get_ok _ _ _ K)).
    destruct (Z.ltb_spec z 0); [reflexivity|].
    apply (ref_loop_out _ _ _ _ C fuel 0 z L). lia.
Qed.

(** list-tail *)
Lemma size_t_small z : 0 <= z < 2 ^ 64 -> to_size_t z = z.
Proof. intros. unfold to_size_t. now apply Z.mod_small. Qed.
Lemma size_t_neg z : - 2 ^ 63 <= z < 0 -> 2 ^ 63 <= to_size_t z.
Proof.
  intros. unfold to_size_t. rewrite <- (Z.mod_add z 1) by lia.
  rewrite Z.mod_small; lia.
Qed.
Lemma tail_loop_in h l cs xs : chain h l cs xs -> forall fuel z, (length xs <= fuel)%nat ->
  0 <= z <= Z.of_nat (length xs) ->
  exists r, tail_loop fuel z l h = Ok (r, h) /\ chain h r (skipn (Z.to_nat z) cs) (skipn (Z.to_nat z) xs).
Proof.
  induction 1; intros fuel z L R; cbn [length] in *.
  - replace z with 0 by lia. exists None. destruct fuel; split; auto; constructor.
  - destruct (Z.eqb_spec z 0) as [->|N].
    + exists (Some c). split; [destruct fuel; reflexivity|]. cbn. econstructor; eauto.
    + destruct fuel; [lia|]. cbn [tail_loop]. destruct (Z.eqb_spec z 0); [lia|].
      rewrite (bind_ok _ _ _ _ _ (getc_ok _ _ _ H)).
      destruct (IHchain fuel (z - 1) ltac:(lia) ltac:(lia)) as (r&P&Q).
      exists r. split; auto. replace (Z.to_nat z) with (S (Z.to_nat (z - 1))) by lia. auto.
Qed.
Lemma tail_loop_out h l cs xs : chain h l cs xs -> forall fuel z, (length xs <= fuel)%nat ->
  Z.of_nat (length xs) < z -> tail_loop fuel z l h = Err.
Proof.
  induction 1; intros fuel z L R; cbn [length] in *.
  - destruct fuel; cbn; (destruct (Z.eqb_spec z 0); [lia|reflexivity]).
  - destruct fuel; [lia|]. cbn [tail_loop]. destruct (Z.eqb_spec z 0); [lia|].
    rewrite (bind_ok _ _ _ _ _ (getc_ok _ _ _ H)). apply IHchain; lia.
Qed.
Lemma list_tail_in h a k cs xs z fuel : wf h -> list_cells h a cs xs -> h_obj h k = Some (ONum z) ->
  (length xs <= fuel)%nat -> in64 z = true -> 0 <= z <= Z.of_nat (length xs) ->
  exists r h', list_tail fuel a k h = Ok (r, h') /\
    list_cells h' r (skipn (Z.to_nat z) cs) (skipn (Z.to_nat z) xs) /\ extends h h' /\ wf h'.
Proof.
  intros W LC K L I R. unfold in64, i64_min, i64_max in I. apply andb_prop in I. destruct I as [I1 I2].
  apply Z.leb_le in I1. apply Z.leb_le in I2.
  assert (X : exists l, chain h l cs xs /\ list_tail fuel a k h =
      (let! r := tail_loop fuel (to_size_t z) l in wrap r) h).
  { destruct LC as [(N&->&->)|(c&O&C)]; unfold list_tail.
    - exists None. split; [constructor|].
      rewrite (bind_ok _ _ _ _ _ (get_ok _ _ _ N)). rewrite (bind_ok _ _ _ _ _ (get_ok _ _ _ K)). reflexivity.
    - exists (Some c). split; auto.
      rewrite (bind_ok _ _ _ _ _ (get_ok _ _ _ O)). rewrite (bind_ok _ _ _ _ _ (get_ok _ _ _ K)). reflexivity. }
  destruct X as (l&C&->). rewrite size_t_small by lia.
  destruct (tail_loop_in _ _ _ _ C fuel z L R) as (r&P&Q).
  rewrite (bind_ok _ _ _ _ _ P). destruct r as [c|].
  - rewrite wrap_some. do 2 eexists. split; [reflexivity|]. split.
    + right. exists c. split; [cbn; now rewrite upd_same|]. eapply chain_extends; eauto. now apply extends_halloc.
    + split; [now apply extends_halloc|now apply wf_halloc].
  - inversion Q. exists nil_a, h. split; auto. split; [left; repeat split; auto; apply W|].
    split; auto using extends_refl.
Qed.
Lemma list_tail_out h a k xs z fuel : is_list h a xs -> h_obj h k = Some (ONum z) ->
  (length xs <= fuel)%nat -> in64 z = true -> Z.of_nat (length xs) < 2 ^ 63 ->
  ~ (0 <= z <= Z.of_nat (length xs)) ->
  list_tail fuel a k h = Err.
Proof.
  intros (cs&LC) K L I B R. unfold in64, i64_min, i64_max in I. apply andb_prop in I. destruct I as [I1 I2].
  apply Z.leb_le in I1. apply Z.leb_le in I2.
  assert (G : Z.of_nat (length xs) < to_size_t z).
  { destruct (Z.lt_ge_cases z 0).
    - pose proof (size_t_neg z ltac:(lia)). lia.
    - rewrite size_t_small by lia. lia. }
  destruct LC as [(N&->&->)|(c&O&C)]; unfold list_tail.
  - rewrite (bind_ok _ _ _ _ _ (get_ok _ _ _ N)). rewrite (bind_ok _ _ _ _ _ (get_ok _ _ _ K)).
    unfold mbind. rewrite (tail_loop_out h None [] []); auto. constructor.
  - rewrite (bind_ok _ _ _ _ _ (get_ok _ _ _ O)). rewrite (bind_ok _ _ _ _ _ (get_ok _ _ _ K)).
    unfold mbind. erewrite tail_loop_out; eauto.
Qed.

(** list-head *)
Lemma head_loop_in h0 h l cs xs : chain h0 l cs xs -> wf h0 -> forall fuel b ys z,
  (length xs <= fuel)%nat -> binv h0 h b ys -> 0 <= z ->
  exists b' h', head_loop fuel b z l h =
      Ok ((b', Z.max 0 (z - Z.of_nat (length xs))), h') /\
      binv h0 h' b' (ys ++ firstn (Z.to_nat z) xs).
Proof.
  intros C W0. revert h. induction C; intros h fuel b ys z L B R; cbn [length] in *.
  - exists b, h. rewrite firstn_nil, app_nil_r. split; auto.
    destruct fuel; cbn [head_loop]; destruct (Z.eqb_spec z 0); unfold ret;
      (replace (Z.max 0 (z - Z.of_nat 0)) with z by lia); reflexivity.
  - destruct (Z.eqb_spec z 0) as [->|N].
    + exists b, h. cbn [Z.to_nat firstn]. rewrite app_nil_r. split; auto.
      replace (Z.max 0 (0 - Z.of_nat (S (length xs)))) with 0 by lia. destruct fuel; reflexivity.
    + destruct fuel; [lia|]. cbn [head_loop]. destruct (Z.eqb_spec z 0); [lia|].
      assert (K : h_cell h c = Some k) by (destruct B as (_&(_&E&_)&_); auto).
      rewrite (bind_ok _ _ _ _ _ (getc_ok _ _ _ K)).
      destruct (b_push_ok _ _ _ _ (c_data k) W0 B) as (b1&h1&P&B1&_).
      rewrite (bind_ok _ _ _ _ _ P).
      destruct (IHC h1 fuel b1 _ (z - 1) ltac:(lia) B1 ltac:(lia)) as (b2&h2&P2&B2).
      exists b2, h2. rewrite P2. split.
      * replace (Z.max 0 (z - 1 - Z.of_nat (length xs))) with (Z.max 0 (z - Z.of_nat (S (length xs)))) by lia. auto.
      * replace (Z.to_nat z) with (S (Z.to_nat (z - 1))) by lia. cbn [firstn].
        rewrite <- app_assoc in B2. auto.
Qed.
Lemma list_head_in h a k xs z fuel : wf h -> is_list h a xs -> h_obj h k = Some (ONum z) ->
  (length xs <= fuel)%nat -> in64 z = true -> 0 <= z <= Z.of_nat (length xs) ->
  exists r h' cs, list_head fuel a k h = Ok (r, h') /\
    list_cells h' r cs (firstn (Z.to_nat z) xs) /\ Forall (fresh_for h) cs /\ extends h h' /\ wf h'.
Proof.
  intros W LC K L I R. unfold in64, i64_min, i64_max in I. apply andb_prop in I. destruct I as [I1 I2].
  apply Z.leb_le in I1. apply Z.leb_le in I2.
  unfold list_head. rewrite (bind_ok _ _ _ _ _ (get_ok _ _ _ K)). cbv iota beta zeta.
  rewrite size_t_small by lia.
  destruct (Z.eqb_spec z 0) as [->|N].
  - exists nil_a, h, []. split; auto. split; [left; repeat split; auto; apply W|]. split; auto.
    split; auto using extends_refl.
  - destruct LC as (cs&[(Nn&->&->)|(c&O&C)]); [cbn in R; lia|].
    rewrite (bind_ok _ _ _ _ _ (get_ok _ _ _ O)). cbv iota beta.
    destruct (head_loop_in h h _ _ _ C W fuel b_empty [] z L (binv_empty _ W) ltac:(lia)) as (b&h1&P&B).
    rewrite (bind_ok _ _ _ _ _ P). cbv iota beta.
    replace (Z.max 0 (z - Z.of_nat (length xs))) with 0 by lia. cbn [Z.eqb].
    destruct (b_wrap_ok _ _ _ _ W B) as (r&h2&P2&W2&E2&cs'&Q&F).
    exists r, h2, cs'. split; [exact P2|]. split; [auto|split; auto].
Qed.
Lemma list_head_out h a k xs z fuel : wf h -> is_list h a xs -> h_obj h k = Some (ONum z) ->
  (length xs <= fuel)%nat -> in64 z = true -> Z.of_nat (length xs) < 2 ^ 63 ->
  ~ (0 <= z <= Z.of_nat (length xs)) ->
  list_head fuel a k h = Err.
Proof.
  intros W (cs&LC) K L I B R. unfold in64, i64_min, i64_max in I. apply andb_prop in I. destruct I as [I1 I2].
  apply Z.leb_le in I1. apply Z.leb_le in I2.
  assert (G : Z.of_nat (length xs) < to_size_t z).
  { destruct (Z.lt_ge_cases z 0).
    - pose proof (size_t_neg z ltac:(lia)). lia.
    - rewrite size_t_small by lia. lia. }
  unfold list_head. rewrite (bind_ok _ _ _ _ _ (get_ok _ _ _ K)). cbv iota beta zeta.
  destruct (Z.eqb_spec (to_size_t z) 0); [lia|].
  destruct LC as [(N&->&->)|(c&O&C)].
  - now rewrite (bind_ok _ _ _ _ _ (get_ok _ _ _ N)).
  - rewrite (bind_ok _ _ _ _ _ (get_ok _ _ _ O)). cbv iota beta.
    destruct (head_loop_in h h _ _ _ C W fuel b_empty [] (to_size_t z) L (binv_empty _ W) ltac:(lia)) as (b&h1&P&Bv).
    rewrite (bind_ok _ _ _ _ _ P). cbv iota beta.
    destruct (Z.eqb_spec (Z.max 0 (to_size_t z - Z.of_nat (length xs))) 0); [lia|reflexivity].
Qed.
