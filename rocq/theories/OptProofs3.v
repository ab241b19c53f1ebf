(** Errors, and the three macros. *)
From Coq Require Import String List ZArith Bool Lia.
From Verif Require Import Base OptModel OptSpec OptProofs OptProofs2.
Import ListNotations.
Local Open Scope string_scope.
Local Open Scope list_scope.
Local Open Scope nat_scope.

(** after well-formed clauses the loop stands at the rest of the list *)
Lemma walk_prefix : forall t1 st cs temps nm rest,
  length temps = length st -> Forall (clause_ok st) cs ->
  exists temps', length temps' = length st /\
    walk t1 st temps (write_clauses cs ++ Some (write_name nm) :: rest) =
    walk t1 st temps' (Some (write_name nm) :: rest).
Proof.
  intros t1 st cs. induction cs as [|c cs IH]; intros temps nm rest L F.
  - exists temps. auto.
  - inversion F as [|? ? C F']; subst. unfold write_clauses. cbn [map concat]. rewrite map_app, <- app_assoc.
    fold (write_clauses cs).
    assert (HD : forall v r, write_clauses cs ++ Some (write_name nm) :: rest = Some v :: r -> is_false v = false).
    { destruct cs as [|c' cs']; intros v r E.
      - cbn in E. injection E as <- _. destruct nm; reflexivity.
      - unfold write_clauses in E. cbn in E.
        destruct c' as [nm'|nm'|nm'|nm' v']; cbn in E; injection E as <- _; destruct nm'; reflexivity. }
    destruct c as [n|n|n|n v]; cbn [write_clause map app]; destruct (extract_written n) as [WB WE]; cbn in C.
    + apply has_kind_find in C. destruct C as (i & FI).
      destruct (IH (set_nth i (Bits 1) temps) nm rest) as (t' & L' & E); [rewrite set_nth_length; exact L|exact F'|].
      exists t'. split; [exact L'|]. cbn [walk] in *. rewrite WB, WE, FI, <- E.
      destruct (write_clauses cs ++ Some (write_name nm) :: rest) as [|[v|] r] eqn:Q; try reflexivity.
      rewrite (HD v r eq_refl). reflexivity.
    + apply has_kind_find in C. destruct C as (i & FI).
      destruct (IH (set_nth i (Bits 1) temps) nm rest) as (t' & L' & E); [rewrite set_nth_length; exact L|exact F'|].
      exists t'. split; [exact L'|]. rewrite <- E. cbn [walk]. rewrite WB, WE, FI. cbn [is_false is_bool]. reflexivity.
    + apply has_kind_find in C. destruct C as (i & FI).
      destruct (IH temps nm rest L F') as (t' & L' & E). exists t'. split; [exact L'|]. rewrite <- E.
      cbn [walk]. rewrite WB, WE, FI. cbn [is_false is_bool]. reflexivity.
    + destruct C as [[C [z ->]]|C]; apply has_kind_find in C; destruct C as (i & FI).
      * destruct (IH (set_nth i (Bits z) temps) nm rest) as (t' & L' & E); [rewrite set_nth_length; exact L|exact F'|].
        exists t'. split; [exact L'|]. rewrite <- E. cbn [walk]. rewrite WB, WE, FI. reflexivity.
      * destruct (IH (set_nth i (store_scm t1 (unquote v)) temps) nm rest) as (t' & L' & E);
          [rewrite set_nth_length; exact L|exact F'|].
        exists t'. split; [exact L'|]. rewrite <- E. cbn [walk]. rewrite WB, WE, FI. reflexivity.
Qed.

Lemma change_prefix_err : forall t1 cr st cs nm rest, Forall (clause_ok st) cs ->
  (forall temps, walk t1 st temps (Some (write_name nm) :: rest) = Err) ->
  change_setting t1 cr (write_clauses cs ++ Some (write_name nm) :: rest) st = (Err, st).
Proof.
  intros t1 cr st cs nm rest F H.
  destruct (walk_prefix t1 st cs (initial_temps st) nm rest (initial_temps_length st) F) as (t' & _ & E).
  unfold change_setting. destruct (write_clauses cs ++ Some (write_name nm) :: rest) eqn:Q.
  - destruct (write_clauses cs); discriminate.
  - rewrite E, H. reflexivity.
Qed.

Lemma interface_clauses : forall f st cs, good f st -> Forall (clause_ok st) cs -> cs <> [] ->
  exists st', interface f [Some (DList (write_clauses cs))] st = (Ok (get_setting st'), st') /\ good f st' /\
    (forall n, has_kind st n KBool -> (on st' n <-> with_copy_rule f (switched_on cs) n)) /\
    (forall n d, last_given cs n d -> forall x, value st' n x <-> stands_for d x) /\
    (forall n, ~ has_kind st n KBool -> not_given cs n -> forall x, value st' n x <-> value st n x).
Proof.
  intros f st cs G F NE. destruct (apply_clauses f st cs G F NE) as (st' & E & R).
  exists st'. split; [|exact R]. rewrite interface_eq. unfold options_interface. rewrite E. reflexivity.
Qed.

Lemma on_list_clauses : forall f st cs, cs <> [] ->
  interface_on_list (t1_of f) (cr_of f) (write_clauses cs) st = interface f [Some (DList (write_clauses cs))] st.
Proof.
  intros f st cs NE. rewrite interface_eq. unfold interface_on_list.
  destruct (write_nonempty cs NE) as (c & r & ->). reflexivity.
Qed.

Lemma stands_value : forall st n d, no_quote_values st -> value st n d -> forall x, stands_for d x <-> x = d.
Proof.
  intros st n d NQ V x.
  assert (S : stands_for d d) by (apply stands_self; intros y r ->; exact (NQ n y r V)).
  split; [intro H; exact (stands_for_fun d x d H S)|intros ->; exact S].
Qed.
Lemma value_fun : forall st n d d', value st n d -> value st n d' -> d = d'.
Proof.
  intros st n d d' (o & L & Q) (o' & L' & Q'). rewrite L in L'. injection L' as <-.
  destruct (o_kind o); [tauto| |]; destruct (o_val o); try tauto; try congruence.
  destruct Q as [[-> ->]|[-> ->]], Q' as [[E ->]|[E ->]]; congruence.
Qed.
Lemma value_not_bool : forall st n d, value st n d -> ~ has_kind st n KBool.
Proof. intros st n d (o & L & Q) (o' & L' & K). rewrite L in L'. injection L' as <-. rewrite K in Q. exact Q. Qed.

(** clauses_of mentions each option once *)
Lemma given_clauses_of : forall f st n d, good f st -> value st n d -> last_given (clauses_of st) n d.
Proof.
  intros f st n d G V. destruct (given_or_not (clauses_of st) n) as [(v & LG)|NG].
  - replace d with v; [exact LG|]. destruct LG as (nm & c1 & c2 & NM & E & _).
    assert (I : In (Set_ nm v) (clauses_of st)) by (rewrite E; apply in_or_app; right; left; reflexivity).
    apply (clauses_of_in f st _ G) in I. destruct I as [(m & Q & _)|(m & d' & Q & V')]; [discriminate|].
    injection Q as -> ->. cbn in NM. subst m. eapply value_fun; eauto.
  - exfalso. apply (NG (Plain n) d); [|reflexivity]. apply (clauses_of_in f st _ G). right. eauto.
Qed.
Lemma switched_clauses_of : forall f st n, good f st -> (switched_on (clauses_of st) n <-> on st n).
Proof.
  intros f st n G. split.
  - intros (nm & NM & [I|I]); apply (clauses_of_in f st _ G) in I;
      destruct I as [(m & Q & O)|(m & d & Q & _)]; try discriminate.
    injection Q as ->. cbn in NM. subst m. exact O.
  - intro O. exists (Plain n). split; [reflexivity|]. left. apply (clauses_of_in f st _ G). left. eauto.
Qed.

Lemma clauses_of_nonempty : forall f st, good f st -> clauses_of st <> [].
Proof.
  intros f st G E.
  assert (exists n d, value st n d) as (n & d & V).
  { pose proof (good_shape _ _ G) as SH. destruct f.
    - destruct (reader_shape _ SH) as (a & b & c & d & ->).
      pose proof (good_vals _ _ G "keywords" (Opt "keywords" KScm d) eq_refl) as V. cbn in V.
      exists "keywords". eexists. apply (value_of_lookup false _ _ (Opt "keywords" KScm d)); [reflexivity|exact V|discriminate|reflexivity].
    - assert (H : has_kind st "stack" KInt).
      { apply (has_kind_shape debug_table); [symmetry; exact SH|]. eexists; split; reflexivity. }
      destruct H as (o & L & K). pose proof (good_vals _ _ G _ _ L) as V.
      exists "stack". eexists. apply (value_of_lookup true _ _ o); [exact L|exact V|congruence|reflexivity]. }
  pose proof (proj2 (clauses_of_in f st (Set_ (Plain n) d) G)) as H. rewrite E in H.
  destruct (H (or_intror (ex_intro _ n (ex_intro _ d (conj eq_refl V))))).
Qed.

(** ** re-applying the printed setting *)
Lemma reapply : forall f st, good f st -> no_quote_values st ->
  interface f [Some (DList (get_setting st))] st = (Ok (get_setting st), st).
Proof.
  intros f st G NQ. rewrite setting_clauses.
  destruct (interface_clauses f st (clauses_of st) G (clauses_of_ok f st G) (clauses_of_nonempty f st G))
    as (st' & E & G' & O & GV & KV).
  rewrite <- setting_clauses in *. replace st' with st in E; [exact E|].
  apply (state_ext f); auto.
  - intros n HK. rewrite (O n HK). unfold with_copy_rule. rewrite !(switched_clauses_of f) by assumption.
    split; [auto|]. intros [|(-> & -> & Q)]; [assumption|]. apply (good_copy _ _ G); auto.
  - intros n d V. apply (GV n d (given_clauses_of f st n d G V)).
    apply (stands_value st n d NQ V). reflexivity.
Qed.

(** ** enable *)
Lemma enable_spec : forall f st flags, good f st -> no_quote_values st ->
  (forall n, In n flags -> has_kind st n KBool) ->
  exists st', enable f flags st = (Ok (get_setting st'), st') /\ good f st' /\
    (forall n, has_kind st n KBool -> (on st' n <-> with_copy_rule f (fun m => on st m \/ In m flags) n)) /\
    (forall n d, value st' n d <-> value st n d).
Proof.
  intros f st flags G NQ HF.
  set (cs := map (fun n => On (Plain n)) flags ++ clauses_of st).
  assert (WR : map (fun n => Some (DSym n)) flags ++ get_setting st = write_clauses cs).
  { unfold cs. rewrite write_app, setting_clauses. f_equal. unfold write_clauses. clear.
    induction flags as [|n r IH]; [reflexivity|]. cbn. f_equal. exact IH. }
  assert (OK : Forall (clause_ok st) cs).
  { apply Forall_app. split; [|apply (clauses_of_ok f); exact G]. apply Forall_forall. intros c I.
    apply in_map_iff in I. destruct I as (n & <- & I). exact (HF n I). }
  assert (NE : cs <> []).
  { unfold cs. intro E. apply app_eq_nil in E. destruct E as [_ E]. exact (clauses_of_nonempty f st G E). }
  destruct (interface_clauses f st cs G OK NE) as (st' & E & G' & O & GV & KV).
  exists st'. split; [|split; [exact G'|]].
  - rewrite <- on_list_clauses, <- WR in E by exact NE. destruct f; exact E.
  - assert (SW : forall n, switched_on cs n <-> on st n \/ In n flags).
    { intro n. rewrite <- (switched_clauses_of f st n G). unfold cs, switched_on. split.
      - intros (nm & NM & [I|I]); apply in_app_or in I; destruct I as [I|I]; try (left; exists nm; auto; fail);
          apply in_map_iff in I; destruct I as (m & Q & I); try discriminate.
        injection Q as <-. cbn in NM. subst m. auto.
      - intros [(nm & NM & [I|I])|I].
        + exists nm. split; [exact NM|]. left. apply in_or_app. auto.
        + exists nm. split; [exact NM|]. right. apply in_or_app. auto.
        + exists (Plain n). split; [reflexivity|]. left. apply in_or_app. left.
          apply (in_map (fun n => On (Plain n))). exact I. }
    split.
    + intros n HK. rewrite (O n HK). unfold with_copy_rule. rewrite !SW. reflexivity.
    + assert (LG : forall n d, value st n d -> last_given cs n d).
      { intros n d V. destruct (given_clauses_of f st n d G V) as (nm & c1 & c2 & A & B & C).
        exists nm, (map (fun n => On (Plain n)) flags ++ c1), c2. unfold cs. rewrite B, <- app_assoc. auto. }
      assert (FW : forall n d, value st n d -> value st' n d).
      { intros n d V. apply (GV n d (LG n d V)). apply (stands_value st n d NQ V). reflexivity. }
      intros n d. split; [|apply FW]. intro V'.
      pose proof V' as (o' & L' & Q'). pose proof (good_vals _ _ G' _ _ L') as VO'.
      assert (HK : has_kind st n (o_kind o')).
      { apply (has_kind_shape st'); [rewrite (good_shape _ _ G), (good_shape _ _ G'); reflexivity|]. exists o'; auto. }
      destruct HK as (o & L & K). assert (NB : o_kind o <> KBool) by (intro X; rewrite <- K, X in Q'; exact Q').
      assert (V : value st n (match o_kind o with KInt => show_int (o_val o) | _ => show_scm (o_val o) end)).
      { apply (value_of_lookup (t1_of f) _ _ _ L (good_vals _ _ G _ _ L) NB). reflexivity. }
      rewrite (value_fun st' n d _ V' (FW _ _ V)). exact V.
Qed.

(** ** set *)
Lemma set_spec : forall f st n v nm, good f st -> no_quote_values st ->
  the_name nm = n -> clause_ok st (Set_ nm v) ->
  exists st', set_option f (write_name nm) v st = (Ok (get_setting st'), st') /\ good f st' /\
    (forall m, has_kind st m KBool -> (on st' m <-> on st m)) /\
    (forall x, value st' n x <-> stands_for v x) /\
    (forall m x, m <> n -> (value st' m x <-> value st m x)).
Proof.
  intros f st n v nm G NQ NM CO.
  set (cs := clauses_of st ++ [Set_ nm v]).
  assert (WR : get_setting st ++ [Some (write_name nm); Some v] = write_clauses cs).
  { unfold cs. rewrite write_app, setting_clauses. reflexivity. }
  assert (OK : Forall (clause_ok st) cs).
  { apply Forall_app. split; [apply (clauses_of_ok f); exact G|]. constructor; [exact CO|constructor]. }
  assert (NE : cs <> []) by (unfold cs; intro E; apply app_eq_nil in E; destruct E; discriminate).
  destruct (interface_clauses f st cs G OK NE) as (st' & E & G' & O & GV & KV).
  exists st'. split; [|split; [exact G'|]].
  - rewrite <- on_list_clauses, <- WR in E by exact NE. destruct f; exact E.
  - assert (SW : forall m, switched_on cs m <-> on st m).
    { intro m. rewrite <- (switched_clauses_of f st m G). unfold cs, switched_on. split.
      - intros (q & Q & [I|I]); apply in_app_or in I; destruct I as [I|[I|[]]]; try discriminate; exists q; auto.
      - intros (q & Q & [I|I]); exists q; (split; [exact Q|]); [left|right]; apply in_or_app; auto. }
    split; [|split].
    + intros m HK. rewrite (O m HK). unfold with_copy_rule. rewrite !SW. split; [|auto].
      intros [|(-> & -> & Q)]; [assumption|]. apply (good_copy _ _ G); auto.
    + apply (GV n v). exists nm, (clauses_of st), []. split; [exact NM|]. split; [reflexivity|]. intros ? ? [].
    + assert (LG : forall m d, m <> n -> value st m d -> last_given cs m d).
      { intros m d N V. destruct (given_clauses_of f st m d G V) as (q & c1 & c2 & A & B & C).
        exists q, c1, (c2 ++ [Set_ nm v]). unfold cs. rewrite B, <- app_assoc. split; [exact A|]. split; [reflexivity|].
        intros q' v' I. apply in_app_or in I. destruct I as [I|[I|[]]]; [eauto|]. injection I as <- <-. congruence. }
      assert (FW : forall m d, m <> n -> value st m d -> value st' m d).
      { intros m d N V. apply (GV m d (LG m d N V)). apply (stands_value st m d NQ V). reflexivity. }
      intros m d N. split; [|apply FW; exact N]. intro V'.
      pose proof V' as (o' & L' & Q').
      assert (HK : has_kind st m (o_kind o')).
      { apply (has_kind_shape st'); [rewrite (good_shape _ _ G), (good_shape _ _ G'); reflexivity|]. exists o'; auto. }
      destruct HK as (o & L & K). assert (NB : o_kind o <> KBool) by (intro X; rewrite <- K, X in Q'; exact Q').
      assert (V : value st m (match o_kind o with KInt => show_int (o_val o) | _ => show_scm (o_val o) end)).
      { apply (value_of_lookup (t1_of f) _ _ _ L (good_vals _ _ G _ _ L) NB). reflexivity. }
      rewrite (value_fun st' m d _ V' (FW _ _ N V)). exact V.
Qed.

(** setting a switch to anything, #f included, leaves a switch that is on, on *)
Lemma set_switch : forall f st n (b : bool), good f st -> no_quote_values st -> has_kind st n KBool ->
  exists st', set_option f (DSym n) (DBool b) st = (Ok (get_setting st'), st') /\ good f st' /\
    (on st' n <-> on st n \/ b = true \/ (f = Reader /\ n = "positions" /\ on st "copy")).
Proof.
  intros f st n b G NQ HK.
  set (cs := clauses_of st ++ [if b then OnTrue (Plain n) else Off (Plain n)]).
  assert (WR : get_setting st ++ [Some (DSym n); Some (DBool b)] = write_clauses cs).
  { unfold cs. rewrite write_app, setting_clauses. destruct b; reflexivity. }
  assert (OK : Forall (clause_ok st) cs).
  { apply Forall_app. split; [apply (clauses_of_ok f); exact G|]. constructor; [destruct b; exact HK|constructor]. }
  assert (NE : cs <> []) by (unfold cs; intro E; apply app_eq_nil in E; destruct E; discriminate).
  destruct (interface_clauses f st cs G OK NE) as (st' & E & G' & O & _ & _).
  exists st'. split; [|split; [exact G'|]].
  - rewrite <- on_list_clauses, <- WR in E by exact NE. destruct f; exact E.
  - assert (SW : forall m, switched_on cs m <-> on st m \/ (b = true /\ m = n)).
    { intro m. rewrite <- (switched_clauses_of f st m G). unfold cs, switched_on. split.
      - intros (q & Q & [I|I]); apply in_app_or in I; destruct I as [I|[I|[]]];
          try (left; exists q; auto; fail); destruct b; try discriminate.
        injection I as <-. cbn in Q. auto.
      - intros [(q & Q & [I|I])|[-> ->]].
        + exists q. split; [exact Q|]. left. apply in_or_app; auto.
        + exists q. split; [exact Q|]. right. apply in_or_app; auto.
        + exists (Plain n). split; [reflexivity|]. right. apply in_or_app. right. left. reflexivity. }
    rewrite (O n HK). unfold with_copy_rule. rewrite !SW. intuition congruence.
Qed.

(** ** disable *)
Lemma filter_write : forall flags cs,
  (forall nm, In (On nm) cs \/ In (OnTrue nm) cs \/ In (Off nm) cs \/ (exists v, In (Set_ nm v) cs) -> exists n, nm = Plain n) ->
  (forall nm, In (OnTrue nm) cs \/ In (Off nm) cs -> ~ In (the_name nm) flags) ->
  (forall nm v, In (Set_ nm v) cs -> ~ In (the_name nm) flags /\ forall s, v = DSym s -> ~ In s flags) ->
  filter (fun d => negb (is_flag flags d)) (write_clauses cs) =
  write_clauses (filter (fun c => match c with On nm => negb (existsb (String.eqb (the_name nm)) flags) | _ => true end) cs).
Proof.
  intros flags cs. induction cs as [|c cs IH]; intros HP HT HS; [reflexivity|].
  assert (IHE := IH ltac:(intros nm Q; apply HP; cbn; destruct Q as [Q|[Q|[Q|(v & Q)]]]; [tauto|tauto|tauto|do 3 right; exists v; tauto])
                    ltac:(intros nm Q; apply HT; cbn; tauto)
                    ltac:(intros nm v Q; apply HS; cbn; tauto)).
  unfold write_clauses at 1. cbn [map concat]. rewrite map_app, filter_app. fold (write_clauses cs). rewrite IHE.
  assert (NF : forall s, ~ In s flags -> existsb (String.eqb s) flags = false).
  { intros s N. destruct (existsb (String.eqb s) flags) eqn:X; [|reflexivity].
    apply existsb_exists in X. destruct X as (y & I & Q). apply String.eqb_eq in Q. subst. tauto. }
  destruct c as [nm|nm|nm|nm v]; destruct (HP nm ltac:(cbn; eauto 6)) as (n & ->);
    cbn [filter write_clause map write_name is_flag the_name].
  - destruct (existsb (String.eqb n) flags); reflexivity.
  - rewrite (NF n (HT (Plain n) ltac:(cbn; auto))). reflexivity.
  - rewrite (NF n (HT (Plain n) ltac:(cbn; auto))). reflexivity.
  - destruct (HS (Plain n) v ltac:(cbn; auto)) as [A B]. cbn in A. rewrite (NF n A). cbn [negb].
    destruct v; try reflexivity. rewrite (NF s (B s eq_refl)). reflexivity.
Qed.

Lemma disable_spec : forall f st flags, good f st -> no_quote_values st ->
  (forall n, In n flags -> has_kind st n KBool) ->
  (forall n s, value st n (DSym s) -> ~ In s flags) ->
  exists st', disable f flags st = (Ok (get_setting st'), st') /\ good f st' /\
    (forall n, has_kind st n KBool -> (on st' n <-> with_copy_rule f (fun m => on st m /\ ~ In m flags) n)) /\
    (forall n d, value st n d -> value st' n d).
Proof.
  intros f st flags G NQ HF HV.
  set (keep := fun c => match c with On nm => negb (existsb (String.eqb (the_name nm)) flags) | _ => true end).
  set (cs := filter keep (clauses_of st)).
  assert (IN : forall s, existsb (String.eqb s) flags = true <-> In s flags).
  { intro s. rewrite existsb_exists. split.
    - intros (y & I & Q). apply String.eqb_eq in Q. subst. exact I.
    - intro I. exists s. split; [exact I|apply String.eqb_refl]. }
  assert (WR : filter (fun d => negb (is_flag flags d)) (get_setting st) = write_clauses cs).
  { rewrite setting_clauses. apply filter_write.
    - intros nm Q. destruct Q as [I|[I|[I|(v & I)]]]; apply (clauses_of_in f st _ G) in I;
        destruct I as [(n & Q & _)|(n & d & Q & _)]; try discriminate Q; injection Q; intros; subst; eauto.
    - intros nm Q. destruct Q as [I|I]; apply (clauses_of_in f st _ G) in I;
        destruct I as [(n & Q & _)|(n & d & Q & _)]; discriminate Q.
    - intros nm v I. apply (clauses_of_in f st _ G) in I.
      destruct I as [(n & Q & _)|(n & d & Q & V)]; [discriminate|]. injection Q as -> ->. cbn. split.
      + intro I. exact (value_not_bool _ _ _ V (HF n I)).
      + intros s ->. exact (HV n s V). }
  assert (LG : forall n d, value st n d -> last_given cs n d).
  { intros n d V. destruct (given_clauses_of f st n d G V) as (nm & c1 & c2 & A & B & C).
    exists nm, (filter keep c1), (filter keep c2). unfold cs. rewrite B, filter_app. split; [exact A|]. split; [reflexivity|].
    intros nm' v' I. apply filter_In in I. destruct I as [I _]. eauto. }
  assert (OK : Forall (clause_ok st) cs).
  { apply Forall_forall. intros c I. apply filter_In in I. destruct I as [I _].
    pose proof (clauses_of_ok f st G) as FO. rewrite Forall_forall in FO. auto. }
  assert (NE : cs <> []).
  { intro E. destruct (clauses_of st) as [|c0 r0] eqn:CE; [exact (clauses_of_nonempty f st G CE)|].
    assert (exists n d, value st n d) as (n & d & V).
    { pose proof (good_shape _ _ G) as SH. destruct f.
      - destruct (reader_shape _ SH) as (a & b & c & d & ->).
        pose proof (good_vals _ _ G "keywords" (Opt "keywords" KScm d) eq_refl) as V. cbn in V.
        exists "keywords". eexists. apply (value_of_lookup false _ _ (Opt "keywords" KScm d)); [reflexivity|exact V|discriminate|reflexivity].
      - assert (H : has_kind st "stack" KInt).
        { apply (has_kind_shape debug_table); [symmetry; exact SH|]. eexists; split; reflexivity. }
        destruct H as (o & L & K). pose proof (good_vals _ _ G _ _ L) as V.
        exists "stack". eexists. apply (value_of_lookup true _ _ o); [exact L|exact V|congruence|reflexivity]. }
    destruct (LG n d V) as (nm & c1 & c2 & _ & Q & _). rewrite E in Q. destruct c1; discriminate Q. }
  destruct (interface_clauses f st cs G OK NE) as (st' & E & G' & O & GV & KV).
  exists st'. split; [|split; [exact G'|]].
  - rewrite <- on_list_clauses, <- WR in E by exact NE. destruct f; exact E.
  - assert (SW : forall n, switched_on cs n <-> on st n /\ ~ In n flags).
    { intro n. rewrite <- (switched_clauses_of f st n G). unfold cs, switched_on. split.
      - intros (nm & NM & [I|I]); apply filter_In in I; destruct I as [I KP].
        + split; [exists nm; auto|]. intro Q. subst n. cbn in KP. apply IN in Q. rewrite Q in KP. discriminate.
        + apply (clauses_of_in f st _ G) in I. destruct I as [(? & Q & _)|(? & ? & Q & _)]; discriminate.
      - intros [(nm & NM & [I|I]) N].
        + exists nm. split; [exact NM|]. left. apply filter_In. split; [exact I|]. cbn. subst n.
          destruct (existsb (String.eqb (the_name nm)) flags) eqn:X; [|reflexivity]. apply IN in X. tauto.
        + apply (clauses_of_in f st _ G) in I. destruct I as [(? & Q & _)|(? & ? & Q & _)]; discriminate. }
    split.
    + intros n HK. rewrite (O n HK). unfold with_copy_rule. rewrite !SW. reflexivity.
    + intros n d V. apply (GV n d (LG n d V)). apply (stands_value st n d NQ V). reflexivity.
Qed.

Lemma named_mentions : forall l n, named_in l n -> mentions l n.
Proof.
  intros l n (d & I & E). destruct d as [b|s|z|items|k]; cbn in E; try discriminate.
  - injection E as ->. left. exact I.
  - right. destruct items as [|[[|q| | |]|] [|[y|] r]]; try discriminate.
    destruct (String.eqb_spec q "quote"); [|discriminate]. subst q. destruct y; try discriminate.
    injection E as ->. exists r. exact I.
Qed.
