(** What a setting made of clauses does; printing and re-applying. *)
From Coq Require Import String List ZArith Bool Lia.
From Verif Require Import Base OptModel OptSpec OptProofs.
Import ListNotations.
Local Open Scope string_scope.
Local Open Scope list_scope.
Local Open Scope nat_scope.

Lemma has_kind_fun : forall st n k k', has_kind st n k -> has_kind st n k' -> k = k'.
Proof. intros st n k k' (o & A & B) (o' & A' & B'). congruence. Qed.

Lemma clauses_val_app : forall t1 k n cs1 cs2 b,
  clauses_val t1 k n (cs1 ++ cs2) b = clauses_val t1 k n cs2 (clauses_val t1 k n cs1 b).
Proof. intros. unfold clauses_val. apply fold_left_app. Qed.

Lemma clauses_val_bool : forall t1 st n cs b, has_kind st n KBool -> Forall (clause_ok st) cs ->
  (switched_on cs n -> clauses_val t1 KBool n cs b = Some (Bits 1)) /\
  (~ switched_on cs n -> clauses_val t1 KBool n cs b = b).
Proof.
  intros t1 st n cs b KB. revert b.
  induction cs as [|c cs IH] using rev_ind; intros b F.
  - split; [intros (nm & _ & [[]|[]])|reflexivity].
  - apply Forall_app in F. destruct F as [F1 F2]. inversion F2 as [|? ? C _]; subst.
    rewrite clauses_val_app. destruct (IH b F1) as [A B].
    assert (INJ : forall c', In c' (cs ++ [c]) <-> In c' cs \/ c = c').
    { intro c'. rewrite in_app_iff. cbn. tauto. }
    assert (ONE : (match c with On nm | OnTrue nm => the_name nm = n | _ => False end) \/
                  ~ (match c with On nm | OnTrue nm => the_name nm = n | _ => False end)).
    { destruct c as [nm|nm|nm|nm v]; try tauto; destruct (String.string_dec (the_name nm) n); tauto. }
    unfold clauses_val at 1 3. cbn [fold_left]. destruct ONE as [Y|N].
    + split; [|intro NS; exfalso; apply NS].
      * intros _. destruct c as [nm|nm|nm|nm v]; try tauto; cbn; rewrite Y, String.eqb_refl; reflexivity.
      * destruct c as [nm|nm|nm|nm v]; try tauto; exists nm; split; auto; rewrite !INJ; auto.
    + assert (E : clause_val t1 KBool n c (clauses_val t1 KBool n cs b) = clauses_val t1 KBool n cs b).
      { destruct c as [nm|nm|nm|nm v]; cbn; try reflexivity;
          destruct (String.eqb_spec (the_name nm) n) as [E|]; try reflexivity; try (exfalso; auto; fail).
        exfalso. subst n. cbn in C. destruct C as [[C _]|C]; pose proof (has_kind_fun _ _ _ _ C KB); discriminate. }
      rewrite E. split.
      * intros (nm & NM & [I|I]); apply A; apply INJ in I; destruct I as [I|I];
          try (subst c; tauto); exists nm; auto.
      * intro NS. apply B. intros (nm & NM & [I|I]); apply NS; exists nm; split; auto; rewrite !INJ; auto.
Qed.

Lemma clauses_val_given : forall t1 st k n cs b, has_kind st n k -> k <> KBool -> Forall (clause_ok st) cs ->
  (forall v, last_given cs n v -> clauses_val t1 k n cs b =
     Some (match k, v with KInt, DNum z => Bits z | _, _ => store_scm t1 (unquote v) end)) /\
  (not_given cs n -> clauses_val t1 k n cs b = b).
Proof.
  intros t1 st k n cs b HK NB F.
  assert (KEEP : forall cs b, Forall (clause_ok st) cs -> not_given cs n -> clauses_val t1 k n cs b = b).
  { clear cs b F. intros cs. induction cs as [|c cs IH]; intros b F NG; [reflexivity|].
    inversion F as [|? ? C F']; subst. unfold clauses_val. cbn [fold_left].
    fold (clauses_val t1 k n cs (clause_val t1 k n c b)).
    rewrite IH; [|assumption|intros nm v I; apply (NG nm v); right; exact I].
    destruct c as [nm|nm|nm|nm v]; cbn; try reflexivity;
      destruct (String.eqb_spec (the_name nm) n) as [E|]; try reflexivity.
    - exfalso. subst n. cbn in C. pose proof (has_kind_fun _ _ _ _ C HK). congruence.
    - exfalso. subst n. cbn in C. pose proof (has_kind_fun _ _ _ _ C HK). congruence.
    - exfalso. apply (NG nm v (or_introl eq_refl) E). }
  split; [|apply KEEP; exact F].
  intros v (nm & cs1 & cs2 & NM & -> & LAST). rewrite clauses_val_app.
  apply Forall_app in F. destruct F as [_ F]. inversion F as [|? ? _ F']; subst.
  unfold clauses_val at 1. cbn [fold_left]. fold (clauses_val t1 k (the_name nm) cs2).
  fold (clauses_val t1 k (the_name nm) cs2 (clause_val t1 k (the_name nm) (Set_ nm v) (clauses_val t1 k (the_name nm) cs1 b))).
  rewrite KEEP; auto. cbn. rewrite String.eqb_refl. reflexivity.
Qed.

Lemma given_or_not : forall cs n, (exists v, last_given cs n v) \/ not_given cs n.
Proof.
  intros cs n. induction cs as [|c cs IH]; [right; intros nm v []|].
  destruct IH as [(v & nm & c1 & c2 & A & -> & B)|NG].
  - left. exists v, nm, (c :: c1), c2. auto.
  - destruct c as [nm|nm|nm|nm v]; try (right; intros nm' v' [E|I]; [discriminate|apply (NG nm' v' I)]).
    destruct (String.string_dec (the_name nm) n) as [E|E].
    + left. exists v, nm, [], cs. split; [exact E|]. split; [reflexivity|exact NG].
    + right. intros nm' v' [E'|I]; [injection E' as <- <-; exact E|apply (NG nm' v' I)].
Qed.
Lemma switched_or_not : forall cs n, switched_on cs n \/ ~ switched_on cs n.
Proof.
  intros cs n. induction cs as [|c cs IH]; [right; intros (nm & _ & [[]|[]])|].
  destruct IH as [(nm & E & I)|N]; [left; exists nm; cbn; tauto|].
  destruct c as [nm|nm|nm|nm v].
  1,2: destruct (String.string_dec (the_name nm) n) as [E|E];
    [left; exists nm; cbn; tauto|
     right; intros (nm' & E' & [[Q|I]|[Q|I]]); try discriminate; try (injection Q as ->; congruence);
     apply N; exists nm'; auto].
  all: right; intros (nm' & E' & [[Q|I]|[Q|I]]); try discriminate; apply N; exists nm'; auto.
Qed.

Lemma value_of_lookup : forall t1 st n o, lookup st n = Some o -> val_ok t1 (o_kind o) (o_val o) ->
  o_kind o <> KBool ->
  forall d, value st n d <->
    d = match o_kind o with KInt => show_int (o_val o) | _ => show_scm (o_val o) end.
Proof.
  intros t1 st n o L V NB d. unfold value. split.
  - intros (o' & L' & Q). rewrite L in L'. injection L' as <-. destruct (o_kind o); [tauto| |].
    + destruct (o_val o); [exact Q|tauto].
    + destruct (o_val o); [|exact Q]. destruct Q as [[-> ->]|[-> ->]]; reflexivity.
  - intros ->. exists o. split; [exact L|]. destruct (o_kind o); [congruence| |].
    + destruct (o_val o); [reflexivity|destruct V].
    + destruct (o_val o); [|reflexivity]. cbn in V. destruct V as [->|[_ ->]]; cbn; auto.
Qed.

Lemma show_store : forall t1 d, show_scm (store_scm t1 d) = d.
Proof. intros t1 [[]| | | |]; cbn; try reflexivity. destruct t1; reflexivity. Qed.

Lemma write_nonempty : forall cs, cs <> [] -> exists c r, write_clauses cs = c :: r.
Proof.
  intros [|c cs] H; [congruence|]. unfold write_clauses. destruct c; cbn; eauto.
Qed.

(** the effect of a setting made of clauses *)
Lemma apply_clauses : forall f st cs, good f st -> Forall (clause_ok st) cs -> cs <> [] ->
  exists st', change_setting (t1_of f) (cr_of f) (write_clauses cs) st = (Ok tt, st') /\ good f st' /\
    (forall n, has_kind st n KBool -> (on st' n <-> with_copy_rule f (switched_on cs) n)) /\
    (forall n d, last_given cs n d -> forall x, value st' n x <-> stands_for d x) /\
    (forall n, ~ has_kind st n KBool -> not_given cs n -> forall x, value st' n x <-> value st n x).
Proof.
  intros f st cs G F NE.
  destruct (walk_clauses (t1_of f) st cs (initial_temps st) (initial_temps_length st) F) as (t' & W & L & T).
  exists (copy_implies_positions (cr_of f) (commit st t')).
  assert (ITM : forall n o, lookup st n = Some o -> tget st t' n =
     clauses_val (t1_of f) (o_kind o) n cs (Some (match o_kind o with KBool => Bits 0 | _ => o_val o end))).
  { intros n o LO. destruct (find_of_lookup _ _ _ LO) as (i & FI & _).
    rewrite (T _ _ _ FI), (initial_temps_get _ _ _ LO). reflexivity. }
  assert (SH : shape (commit st t') = shape (initial f)) by (rewrite commit_shape; apply G).
  split; [|split; [|split; [|split]]].
  - unfold change_setting. destruct (write_nonempty cs NE) as (c & r & E). rewrite E in *. rewrite W. reflexivity.
  - pose proof (walk_any (t1_of f) st _ (write_clauses cs) (initial_temps st) (le_n _) (initial_temps_length st)) as WA.
    rewrite W in WA. destruct WA as [_ WA]. apply commit_good; auto.
    intros n k i FI. destruct (WA _ _ _ FI) as [E|[_ Q]]; [|exact Q]. rewrite E. eapply initial_temps_ok; eauto.
  - assert (ON : forall n, has_kind st n KBool -> (on (commit st t') n <-> switched_on cs n)).
    { intros n HK. pose proof HK as (o & LO & KO).
      destruct (clauses_val_bool (t1_of f) st n cs (Some (Bits 0)) HK F) as [A B].
      pose proof (ITM n o LO) as E. rewrite KO in E.
      destruct (switched_or_not cs n) as [Y|N].
      - rewrite (A Y) in E. split; [intros _; exact Y|intros _].
        eexists. split; [apply (commit_lookup _ _ _ _ _ LO E)|]. cbn. split; [exact KO|discriminate].
      - rewrite (B N) in E. split; [|tauto]. intros (o' & L' & _ & NZ).
        rewrite (commit_lookup _ _ _ _ _ LO E) in L'. injection L' as <-. cbn in NZ. congruence. }
    intros n HK.
    rewrite on_copy; [|exact SH|apply (has_kind_shape st); [rewrite commit_shape; reflexivity|exact HK]].
    unfold with_copy_rule. rewrite (ON n HK).
    split; (intros [|(E1 & E2 & H)]; [auto|right; repeat split; auto]).
    + apply ON; auto. subst f. destruct (reader_shape st (good_shape _ _ G)) as (? & ? & ? & ? & ->).
      eexists; split; reflexivity.
    + apply ON; auto. subst f. destruct (reader_shape st (good_shape _ _ G)) as (? & ? & ? & ? & ->).
      eexists; split; reflexivity.
  - intros n d LG x.
    assert (HK : has_kind st n KInt /\ (exists z, d = DNum z) \/ has_kind st n KScm).
    { destruct LG as (nm & c1 & c2 & NM & -> & _). apply Forall_app in F. destruct F as [_ F].
      inversion F as [|? ? C _]; subst. cbn in C. exact C. }
    assert (exists k, has_kind st n k /\ k <> KBool) as (k & HKk & NB).
    { destruct HK as [[H _]|H]; eexists; split; try exact H; discriminate. }
    assert (NBK : ~ has_kind (commit st t') n KBool).
    { intro Q. apply (has_kind_shape _ st) in Q; [|apply commit_shape]. apply NB. eapply has_kind_fun; eauto. }
    rewrite (value_copy f _ n x SH NBK).
    pose proof HKk as (o & LO & KO). pose proof (ITM n o LO) as E. rewrite KO in E.
    destruct (clauses_val_given (t1_of f) st k n cs (Some (match k with KBool => Bits 0 | _ => o_val o end)) HKk NB F) as [A _].
    rewrite (A d LG) in E. pose proof (commit_lookup _ _ _ _ _ LO E) as CL.
    destruct HK as [[HI (z & ->)]|HS].
    + pose proof (has_kind_fun _ _ _ _ HI HKk) as EK; rewrite <- EK in *.
      rewrite (value_of_lookup (t1_of f) _ _ _ CL); cbn [o_kind o_val]; rewrite KO; cbn; auto; try discriminate.
      split; [intros ->; apply stands_self; discriminate|].
      intro S. inversion S; reflexivity.
    + pose proof (has_kind_fun _ _ _ _ HS HKk) as EK; rewrite <- EK in *.
      rewrite (value_of_lookup (t1_of f) _ _ _ CL); cbn [o_kind o_val]; rewrite KO.
      * rewrite show_store. split; [intros ->; apply stands_for_unquote|].
        intro S. apply (stands_for_fun d); [exact S|apply stands_for_unquote].
      * apply store_ok.
      * discriminate.
  - intros n NB NG x.
    assert (NBK : ~ has_kind (commit st t') n KBool).
    { intro Q. apply (has_kind_shape _ st) in Q; [|apply commit_shape]. auto. }
    rewrite (value_copy f _ n x SH NBK).
    destruct (lookup st n) as [o|] eqn:LO.
    + assert (KO : o_kind o <> KBool) by (intro K; apply NB; exists o; auto).
      destruct (clauses_val_given (t1_of f) st (o_kind o) n cs
                  (Some (match o_kind o with KBool => Bits 0 | _ => o_val o end)) ltac:(exists o; auto) KO F) as [_ B].
      pose proof (ITM n o LO) as E. rewrite (B NG) in E.
      pose proof (commit_lookup _ _ _ _ _ LO E) as CL. unfold value. rewrite CL, LO.
      split; intros (o' & Q & R); injection Q as <-; eexists; (split; [reflexivity|]);
        cbn [o_kind o_val] in *; destruct (o_kind o); try congruence; exact R.
    + unfold value. rewrite LO. apply find_none in LO.
      rewrite <- (find_shape _ _ n (commit_shape st t')) in LO. apply find_none in LO. rewrite LO. tauto.
Qed.

(** ** the printed setting as clauses *)
Definition clauses_of_opt (o : opt) : list clause :=
  match o_kind o with
  | KBool => if truthy (o_val o) then [On (Plain (o_name o))] else []
  | KInt => [Set_ (Plain (o_name o)) (show_int (o_val o))]
  | KScm => [Set_ (Plain (o_name o)) (show_scm (o_val o))]
  end.
Definition clauses_of (st : list opt) : list clause := concat (map clauses_of_opt (rev st)).

Lemma write_app : forall a b, write_clauses (a ++ b) = write_clauses a ++ write_clauses b.
Proof. intros. unfold write_clauses. rewrite map_app, concat_app, map_app. reflexivity. Qed.

Lemma setting_clauses : forall st, get_setting st = write_clauses (clauses_of st).
Proof.
  intro st. unfold get_setting, clauses_of. induction (rev st) as [|o r IH]; [reflexivity|].
  cbn [map concat]. rewrite write_app, <- IH. f_equal. unfold show_opt, clauses_of_opt.
  destruct (o_kind o); [destruct (truthy (o_val o))| |]; reflexivity.
Qed.

(** distinct names *)
Definition distinct (st : list opt) := NoDup (map o_name st).
Lemma good_distinct : forall f st, good f st -> distinct st.
Proof.
  intros f st G. unfold distinct. replace (map o_name st) with (map fst (shape st)).
  - rewrite (good_shape _ _ G). destruct f; cbn; repeat constructor; cbn; intuition discriminate.
  - unfold shape. rewrite map_map. reflexivity.
Qed.
Lemma distinct_lookup : forall st o, distinct st -> In o st -> lookup st (o_name o) = Some o.
Proof.
  unfold distinct. induction st as [|p r IH]; intros o D I; [destruct I|].
  cbn in D. inversion D as [|? ? NI D']; subst. unfold lookup. cbn.
  destruct I as [->|I]; [rewrite String.eqb_refl; reflexivity|].
  destruct (String.eqb_spec (o_name p) (o_name o)) as [E|_].
  - exfalso. apply NI. rewrite E. apply in_map. exact I.
  - apply IH; auto.
Qed.
Lemma lookup_in : forall st n o, lookup st n = Some o -> In o st /\ o_name o = n.
Proof. intros st n o H. apply find_some in H. destruct H as [A B]. apply String.eqb_eq in B. auto. Qed.

Lemma clauses_of_in : forall f st c, good f st ->
  (In c (clauses_of st) <->
   (exists n, c = On (Plain n) /\ on st n) \/ (exists n d, c = Set_ (Plain n) d /\ value st n d)).
Proof.
  intros f st c G. unfold clauses_of. rewrite in_concat. split.
  - intros (l & I & IC). apply in_map_iff in I. destruct I as (o & <- & I). apply in_rev in I.
    pose proof (distinct_lookup _ _ (good_distinct _ _ G) I) as L.
    pose proof (good_vals _ _ G _ _ L) as V.
    unfold clauses_of_opt in IC. destruct (o_kind o) eqn:K.
    + destruct (truthy (o_val o)) eqn:T; [|destruct IC]. destruct IC as [<-|[]]. left.
      exists (o_name o). split; [reflexivity|]. apply (on_truthy _ _ _ L K). exact T.
    + destruct IC as [<-|[]]. right. exists (o_name o), (show_int (o_val o)). split; [reflexivity|].
      apply (value_of_lookup (t1_of f) _ _ _ L); [rewrite K; exact V|congruence|rewrite K; reflexivity].
    + destruct IC as [<-|[]]. right. exists (o_name o), (show_scm (o_val o)). split; [reflexivity|].
      apply (value_of_lookup (t1_of f) _ _ _ L); [rewrite K; exact V|congruence|rewrite K; reflexivity].
  - intros [(n & -> & O)|(n & d & -> & Vd)].
    + pose proof O as (o & L & K & _). destruct (lookup_in _ _ _ L) as [I <-].
      exists (clauses_of_opt o). split; [apply in_map; apply -> in_rev; exact I|].
      unfold clauses_of_opt. rewrite K. apply (on_truthy _ _ _ L K) in O. rewrite O. left; reflexivity.
    + pose proof Vd as (o & L & Q). destruct (lookup_in _ _ _ L) as [I <-].
      pose proof (good_vals _ _ G _ _ L) as V.
      assert (NB : o_kind o <> KBool) by (intro K; rewrite K in Q; exact Q).
      apply (value_of_lookup (t1_of f) _ _ _ L V NB) in Vd. subst d.
      exists (clauses_of_opt o). split; [apply in_map; apply -> in_rev; exact I|].
      unfold clauses_of_opt. destruct (o_kind o); [congruence| |]; left; reflexivity.
Qed.

Lemma clauses_of_ok : forall f st, good f st -> Forall (clause_ok st) (clauses_of st).
Proof.
  intros f st G. apply Forall_forall. intros c I. apply (clauses_of_in f st c G) in I.
  destruct I as [(n & -> & (o & L & K & _))|(n & d & -> & (o & L & Q))]; cbn.
  - exists o; auto.
  - destruct (o_kind o) eqn:K; [tauto| |].
    + left. split; [exists o; auto|]. destruct (o_val o); [eauto|tauto].
    + right. exists o; auto.
Qed.

(** states are determined by what can be asked about them *)
Lemma list_by_lookup : forall l l', distinct l -> shape l = shape l' ->
  (forall n, lookup l n = lookup l' n) -> l = l'.
Proof.
  induction l as [|o r IH]; intros [|o' r'] D S H; try discriminate; [reflexivity|].
  cbn in S. injection S as N K S. unfold distinct in D. cbn in D. inversion D as [|? ? NI D']; subst.
  pose proof (H (o_name o)) as H0. unfold lookup in H0. cbn in H0. rewrite N, !String.eqb_refl in H0.
  injection H0 as <-. f_equal. apply IH; auto.
  intro n. pose proof (H n) as Hn. unfold lookup in Hn. cbn in Hn.
  destruct (String.eqb_spec (o_name o) n) as [E|E]; [|exact Hn].
  subst n.
  assert (Z1 : lookup r (o_name o) = None).
  { destruct (lookup r (o_name o)) as [x|] eqn:X; [|reflexivity]. apply lookup_in in X. destruct X as [A B].
    exfalso. apply NI. rewrite <- B. apply in_map. exact A. }
  rewrite Z1. symmetry. apply find_none. rewrite <- (find_shape _ _ _ S). apply find_none. exact Z1.
Qed.

Lemma state_ext : forall f st st', good f st -> good f st' ->
  (forall n, has_kind st n KBool -> (on st n <-> on st' n)) ->
  (forall n d, value st n d -> value st' n d) -> st = st'.
Proof.
  intros f st st' G G' HO HV.
  assert (SS : shape st = shape st') by (rewrite (good_shape _ _ G), (good_shape _ _ G'); reflexivity).
  apply list_by_lookup; [apply (good_distinct f); exact G|exact SS|].
  intro n. destruct (lookup st n) as [o|] eqn:L.
  - destruct (find_of_lookup _ _ _ L) as (i & F & _). rewrite (find_shape _ _ n SS) in F.
    destruct (find_name _ _ _ _ F) as (o' & _ & N' & K' & L'). rewrite L'. f_equal.
    destruct (lookup_in _ _ _ L) as [_ N].
    pose proof (good_vals _ _ G _ _ L) as V. pose proof (good_vals _ _ G' _ _ L') as V'.
    destruct o as [on1 k v], o' as [on2 k2 v']. cbn in *. subst on1 on2 k2. f_equal.
    destruct k.
    + pose proof (HO n ltac:(eexists; split; [exact L|reflexivity])) as E.
      rewrite (on_truthy _ _ _ L eq_refl), (on_truthy _ _ _ L' eq_refl) in E. cbn in E, V, V'.
      destruct v as [z|], v' as [z'|]; try tauto. cbn in E.
      destruct V as [-> | ->], V' as [-> | ->]; try reflexivity; cbn in E; destruct E; exfalso; intuition discriminate.
    + assert (E : value st n (show_int v)).
      { apply (value_of_lookup (t1_of f) _ _ _ L); [exact V|discriminate|reflexivity]. }
      apply HV in E. apply (value_of_lookup (t1_of f) _ _ _ L') in E; [|exact V'|discriminate].
      cbn in *. destruct v, v'; try tauto. cbn in E. congruence.
    + assert (E : value st n (show_scm v)).
      { apply (value_of_lookup (t1_of f) _ _ _ L); [exact V|discriminate|reflexivity]. }
      apply HV in E. apply (value_of_lookup (t1_of f) _ _ _ L') in E; [|exact V'|discriminate].
      cbn [o_kind o_val] in E. unfold val_ok in V, V'. cbn [o_kind o_val] in V, V'. destruct v as [z|d], v' as [z'|d']; cbn in E.
      * destruct V as [-> |[_ ->]], V' as [-> |[_ ->]]; try reflexivity; discriminate E.
      * destruct V as [-> |[T ->]]; cbn in E; destruct V' as [A B]; [congruence|].
        exfalso. apply (B T). congruence.
      * destruct V' as [-> |[T ->]]; cbn in E; destruct V as [A B]; [congruence|].
        exfalso. apply (B T). congruence.
      * congruence.
  - apply find_none in L. rewrite (find_shape _ _ n SS) in L. apply find_none in L. rewrite L. reflexivity.
Qed.
