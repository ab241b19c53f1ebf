(** C65: reader and debugger options. *)
From Coq Require Import String List ZArith Bool Lia.
From Verif Require Import Base OptModel OptSpec OptProofs OptProofs2 OptProofs3.
Import ListNotations.
Local Open Scope string_scope.
Local Open Scope Z_scope.
Local Open Scope list_scope.

(** A setting list made of clauses: exactly the listed switches are on
    afterwards (plus positions when copy is), every value option has the last
    value given (a quote form stands for its operand), the others keep
    theirs; the new setting is returned. *)
Theorem c65_apply : forall f st cs,
  reachable f st -> Forall (clause_ok st) cs -> cs <> [] ->
  exists st', interface f [Some (DList (write_clauses cs))] st = (Ok (get_setting st'), st') /\
    (forall n, has_kind st n KBool -> (on st' n <-> with_copy_rule f (switched_on cs) n)) /\
    (forall n d, last_given cs n d -> forall x, value st' n x <-> stands_for d x) /\
    (forall n, ~ has_kind st n KBool -> not_given cs n -> forall x, value st' n x <-> value st n x).
Proof.
  intros f st cs R F NE.
  destruct (interface_clauses f st cs (reachable_good _ _ R) F NE) as (st' & E & _ & Q). exists st'. auto.
Qed.

Example c65_apply_ex :
  reachable Reader read_table /\
  Forall (clause_ok read_table) [On (Quoted "copy"); Off (Plain "case-insensitive");
     Set_ (Plain "keywords") (DSym "prefix")] /\
  fst (interface Reader [Some (DList (write_clauses [On (Quoted "copy"); Off (Plain "case-insensitive");
     Set_ (Plain "keywords") (DSym "prefix")]))] read_table) =
  Ok (map Some [DSym "keywords"; DSym "prefix"; DSym "positions"; DSym "copy"]).
Proof.
  split; [constructor|]. split; [|reflexivity].
  apply Forall_cons; [eexists; split; reflexivity|]. apply Forall_cons; [eexists; split; reflexivity|].
  apply Forall_cons; [right; eexists; split; reflexivity|constructor].
Qed.

(** Any list whatever: the call either raises an error and changes nothing, or
    returns the new setting, in which only switches named in the list are on
    and only options named in it have changed. *)
Theorem c65_any_list : forall f st l, reachable f st ->
  interface f [Some (DList l)] st = (Err, st) \/
  exists st', interface f [Some (DList l)] st = (Ok (get_setting st'), st') /\
    (l <> [] -> forall n, on st' n -> with_copy_rule f (mentions l) n) /\
    (forall n x, value st' n x -> value st n x \/ mentions l n).
Proof.
  intros f st l R. pose proof (reachable_good _ _ R) as G. rewrite interface_eq. unfold options_interface, change_setting.
  destruct l as [|c l]; [right; exists st; split; [reflexivity|]; split; [congruence|auto]|].
  pose proof (walk_any (t1_of f) st _ (c :: l) (initial_temps st) (le_n _) (initial_temps_length st)) as W.
  destruct (walk (t1_of f) st (initial_temps st) (c :: l)) as [t'| | | |]; try tauto; try (left; reflexivity).
  destruct W as [L W]. right. exists (copy_implies_positions (cr_of f) (commit st t')).
  assert (SH : shape (commit st t') = shape (initial f)) by (rewrite commit_shape; apply G).
  split; [reflexivity|]. split.
  - intros _ n O.
    assert (ON : forall m, has_kind st m KBool -> on (commit st t') m -> mentions (c :: l) m).
    { intros m (o & LO & K) OM. destruct (find_of_lookup _ _ _ LO) as (i & FI & _). rewrite K in FI.
      destruct (W _ _ _ FI) as [E|[N _]]; [|apply named_mentions; exact N]. rewrite (initial_temps_get _ _ _ LO), K in E.
      destruct OM as (o' & L' & _ & NZ). rewrite (commit_lookup _ _ _ _ _ LO E) in L'. injection L' as <-.
      cbn in NZ. congruence. }
    assert (HK : has_kind st n KBool).
    { destruct O as (o & LO & K & _). apply (has_kind_shape (copy_implies_positions (cr_of f) (commit st t'))).
      - rewrite copy_shape, commit_shape. reflexivity.
      - exists o; auto. }
    apply on_copy in O; [|exact SH|apply (has_kind_shape st); [rewrite commit_shape; reflexivity|exact HK]].
    destruct O as [O|(E1 & E2 & O)]; [left; apply ON; auto|right; repeat split; auto].
    apply ON; auto. subst f. destruct (reader_shape st (good_shape _ _ G)) as (? & ? & ? & ? & ->). eexists; split; reflexivity.
  - intros n x V. pose proof (value_not_bool _ _ _ V) as NB.
    assert (NB' : ~ has_kind (commit st t') n KBool).
    { intro Q. apply NB. apply (has_kind_shape (commit st t')); [rewrite copy_shape; reflexivity|exact Q]. }
    apply (value_copy f _ n x SH NB') in V.
    pose proof V as (o' & L' & _). destruct (find_of_lookup _ _ _ L') as (i & FI & _).
    rewrite (find_shape _ _ n (commit_shape st t')) in FI.
    destruct (W _ _ _ FI) as [E|[N _]]; [left|right; apply named_mentions; exact N].
    destruct (find_name _ _ _ _ FI) as (o & _ & _ & K & LO).
    rewrite (initial_temps_get _ _ _ LO) in E.
    rewrite (commit_lookup _ _ _ _ _ LO E) in L'. injection L' as <-. cbn in K.
    destruct V as (o2 & L2 & Q). rewrite (commit_lookup _ _ _ _ _ LO E) in L2. injection L2 as <-. cbn in Q.
    exists o. split; [exact LO|]. destruct (o_kind o); [tauto|exact Q|exact Q].
Qed.

(** An unknown name at the place of a name: error, nothing changes, whatever
    follows. *)
Theorem c65_unknown_name : forall f st cs nm rest,
  reachable f st -> Forall (clause_ok st) cs -> lookup st (the_name nm) = None ->
  interface f [Some (DList (write_clauses cs ++ Some (write_name nm) :: rest))] st = (Err, st).
Proof.
  intros f st cs nm rest R F LN. rewrite interface_eq. unfold options_interface.
  rewrite change_prefix_err; auto. intro temps. cbn [walk]. destruct (extract_written nm) as [-> ->].
  apply find_none in LN. rewrite LN. reflexivity.
Qed.
Example c65_unknown_name_ex :
  interface Reader [Some (DList (write_clauses [On (Plain "copy")] ++ Some (write_name (Plain "colour")) :: []))] read_table
  = (Err, read_table).
Proof. apply c65_unknown_name; [constructor|apply Forall_cons; [eexists; split; reflexivity|constructor]|reflexivity]. Qed.

(** A value option without a value, or an integer option with something that
    is not an integer: error, nothing changes. *)
Theorem c65_bad_value : forall f st cs nm rest,
  reachable f st -> Forall (clause_ok st) cs ->
  (has_kind st (the_name nm) KInt /\ (forall z r, rest <> Some (DNum z) :: r) \/
   has_kind st (the_name nm) KScm /\ rest = []) ->
  interface f [Some (DList (write_clauses cs ++ Some (write_name nm) :: rest))] st = (Err, st).
Proof.
  intros f st cs nm rest R F H. rewrite interface_eq. unfold options_interface.
  rewrite change_prefix_err; auto. intro temps. cbn [walk]. destruct (extract_written nm) as [-> ->].
  destruct H as [[H N]|[H ->]]; apply has_kind_find in H; destruct H as (i & ->); [|reflexivity].
  destruct rest as [|[[| |z| |]|] r]; try reflexivity. exfalso. exact (N z r eq_refl).
Qed.
Example c65_bad_value_ex :
  interface Debugger [Some (DList (write_clauses [On (Plain "trace")] ++ Some (write_name (Plain "stack")) :: [Some (DSym "big")]))] debug_table
  = (Err, debug_table).
Proof. apply c65_bad_value; [constructor|apply Forall_cons; [eexists; split; reflexivity|constructor]|].
  left. split; [eexists; split; reflexivity|discriminate]. Qed.

(** In every reachable state of the reader table copy implies positions. *)
Theorem c65_copy_implies_positions : forall st,
  reachable Reader st -> on st "copy" -> on st "positions".
Proof. intros st R. exact (good_copy _ _ (reachable_good _ _ R) eq_refl). Qed.

(** The printed setting names every switch that is on and every value. *)
Theorem c65_printed : forall f st, reachable f st ->
  exists cs, get_setting st = write_clauses cs /\
    (forall n, switched_on cs n <-> on st n) /\
    (forall n d, value st n d -> last_given cs n d) /\
    (forall nm d, In (Set_ nm d) cs -> value st (the_name nm) d).
Proof.
  intros f st R. pose proof (reachable_good _ _ R) as G. exists (clauses_of st).
  split; [apply setting_clauses|]. split; [|split].
  - intro n. apply (switched_clauses_of f); exact G.
  - intros n d V. apply (given_clauses_of f); assumption.
  - intros nm d I. apply (clauses_of_in f st _ G) in I.
    destruct I as [(n & Q & _)|(n & d' & Q & V)]; [discriminate|]. injection Q as -> ->. exact V.
Qed.

(** Applying the printed setting is the identity when no value is itself a
    quote form ... *)
Theorem c65_reapply_identity : forall f st,
  reachable f st -> no_quote_values st ->
  interface f [Some (DList (get_setting st))] st = (Ok (get_setting st), st).
Proof. intros f st R. apply reapply. apply reachable_good. exact R. Qed.
Example c65_reapply_ex : no_quote_values debug_table.
Proof.
  intros n x r (o & L & Q). apply find_some in L. destruct L as [I _]. cbn in I.
  repeat (destruct I as [<-|I]; [cbn in Q; intuition discriminate|]). destruct I.
Qed.

(** ... and not otherwise: a value (quote y) loses its quote. *)
Definition quote_y : datum := DList [Some (DSym "quote"); Some (DSym "y")].
Theorem c103_reapply_refuted : exists st, reachable Reader st /\ value st "keywords" quote_y /\
  interface Reader [Some (DList (get_setting st))] st <> (Ok (get_setting st), st).
Proof.
  exists (snd (interface Reader [Some (DList [Some (DSym "keywords"); Some (DList [Some (DSym "quote"); Some quote_y])])] read_table)).
  split; [apply reach_call; constructor|]. split.
  - eexists. split; [reflexivity|]. reflexivity.
  - vm_compute. discriminate.
Qed.

(** read-enable / debug-enable on switches: those and the ones that were on,
    with the values unchanged. *)
Theorem c65_enable : forall f st flags, reachable f st -> no_quote_values st ->
  (forall n, In n flags -> has_kind st n KBool) ->
  exists st', enable f flags st = (Ok (get_setting st'), st') /\
    (forall n, has_kind st n KBool -> (on st' n <-> with_copy_rule f (fun m => on st m \/ In m flags) n)) /\
    (forall n d, value st' n d <-> value st n d).
Proof.
  intros f st flags R NQ HF.
  destruct (enable_spec f st flags (reachable_good _ _ R) NQ HF) as (st' & E & _ & Q). eauto.
Qed.
Example c65_enable_ex :
  (forall n, In n ["trace"; "debug"] -> has_kind debug_table n KBool) /\
  on (snd (enable Debugger ["trace"; "debug"] debug_table)) "trace".
Proof.
  split.
  - intros n [<-|[<-|[]]]; eexists; split; reflexivity.
  - eexists. split; [reflexivity|]. split; [reflexivity|discriminate].
Qed.

(** read-disable / debug-disable on switches, when none of the names is also
    the value of an option. *)
Theorem c65_disable : forall f st flags, reachable f st -> no_quote_values st ->
  (forall n, In n flags -> has_kind st n KBool) ->
  (forall n s, value st n (DSym s) -> ~ In s flags) ->
  exists st', disable f flags st = (Ok (get_setting st'), st') /\
    (forall n, has_kind st n KBool -> (on st' n <-> with_copy_rule f (fun m => on st m /\ ~ In m flags) n)) /\
    (forall n d, value st n d -> value st' n d).
Proof.
  intros f st flags R NQ HF HV.
  destruct (disable_spec f st flags (reachable_good _ _ R) NQ HF HV) as (st' & E & _ & Q). eauto.
Qed.
Example c65_disable_ex : ~ on (snd (disable Reader ["positions"] read_table)) "positions".
Proof. intros (o & L & _ & N). cbn in L. injection L as <-. apply N. reflexivity. Qed.

(** Without that hypothesis it is false: with keywords set to the symbol copy,
    (read-disable 'copy) removes the value as well, so that "positions" is
    read as the value of keywords and positions is switched off. *)
Theorem c103_disable_value_refuted : exists st, reachable Reader st /\ no_quote_values st /\
  on st "positions" /\ value st "keywords" (DSym "copy") /\
  value (snd (disable Reader ["copy"] st)) "keywords" (DSym "positions") /\
  ~ on (snd (disable Reader ["copy"] st)) "positions".
Proof.
  exists (snd (interface Reader [Some (DList (map Some [DSym "keywords"; DSym "copy"; DSym "positions"]))] read_table)).
  split; [apply reach_call; constructor|]. split; [|split; [|split; [|split]]].
  - intros n x r (o & L & Q). apply find_some in L. destruct L as [I _]. cbn in I.
    repeat (destruct I as [<-|I]; [cbn in Q; intuition discriminate|]). destruct I.
  - eexists. split; [reflexivity|]. split; [reflexivity|discriminate].
  - eexists. split; reflexivity.
  - eexists. split; reflexivity.
  - intros (o & L & _ & N). vm_compute in L. injection L as <-. apply N. reflexivity.
Qed.

(** read-set! / debug-set! of a value option sets that option and nothing else. *)
Theorem c65_set_value : forall f st nm v, reachable f st -> no_quote_values st ->
  clause_ok st (Set_ nm v) ->
  exists st', set_option f (write_name nm) v st = (Ok (get_setting st'), st') /\
    (forall m, has_kind st m KBool -> (on st' m <-> on st m)) /\
    (forall x, value st' (the_name nm) x <-> stands_for v x) /\
    (forall m x, m <> the_name nm -> (value st' m x <-> value st m x)).
Proof.
  intros f st nm v R NQ CO.
  destruct (set_spec f st (the_name nm) v nm (reachable_good _ _ R) NQ eq_refl CO) as (st' & E & _ & Q). eauto.
Qed.
Example c65_set_value_ex : clause_ok debug_table (Set_ (Plain "stack") (DNum 200000)) /\
  value (snd (set_option Debugger (DSym "stack") (DNum 200000) debug_table)) "stack" (DNum 200000).
Proof. split; [left; split; [eexists; split; reflexivity|eauto]|eexists; split; reflexivity]. Qed.

(** On a switch read-set! / debug-set! can only switch on: with #f it leaves a
    switch that is on as it is, in every reachable state. *)
Theorem c65_set_switch : forall f st n b, reachable f st -> no_quote_values st -> has_kind st n KBool ->
  exists st', set_option f (DSym n) (DBool b) st = (Ok (get_setting st'), st') /\
    (on st' n <-> on st n \/ b = true \/ (f = Reader /\ n = "positions" /\ on st "copy")).
Proof.
  intros f st n b R NQ HK.
  destruct (set_switch f st n b (reachable_good _ _ R) NQ HK) as (st' & E & _ & Q). eauto.
Qed.
Theorem c103_set_false_refuted : exists f st n, reachable f st /\ on st n /\
  on (snd (set_option f (DSym n) (DBool false) st)) n.
Proof.
  exists Reader, read_table, "positions". split; [constructor|].
  split; eexists; (split; [reflexivity|]); split; try reflexivity; discriminate.
Qed.
