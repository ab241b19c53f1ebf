(** Proofs about OptModel. *)
From Coq Require Import String List ZArith Bool Lia.
From Verif Require Import Base OptModel OptSpec.
Import ListNotations.
Local Open Scope string_scope.
Local Open Scope list_scope.
Local Open Scope nat_scope.

Definition shape (st : list opt) := map (fun o => (o_name o, o_kind o)) st.

(** ** indices and names *)
Lemma find_name : forall st n i k, find_option st n = Some (i, k) ->
  exists o, nth_error st i = Some o /\ o_name o = n /\ o_kind o = k /\ lookup st n = Some o.
Proof.
  induction st as [|o r IH]; intros n i k H; [discriminate|]. cbn in H. unfold lookup. cbn.
  destruct (String.eqb_spec (o_name o) n).
  - injection H as <- <-. exists o. auto.
  - destruct (find_option r n) as [[j k']|] eqn:E; [|discriminate]. injection H as <- <-.
    destruct (IH _ _ _ E) as (o' & A & B & C & D). exists o'. auto.
Qed.
Lemma find_none : forall st n, find_option st n = None <-> lookup st n = None.
Proof.
  induction st as [|o r IH]; intro n; [cbn; tauto|]. unfold lookup. cbn.
  destruct (String.eqb_spec (o_name o) n); [split; discriminate|].
  specialize (IH n). unfold lookup in IH. destruct (find_option r n) as [[j k]|].
  - rewrite <- IH. split; discriminate.
  - rewrite <- IH. split; auto.
Qed.
Lemma find_of_lookup : forall st n o, lookup st n = Some o ->
  exists i, find_option st n = Some (i, o_kind o) /\ nth_error st i = Some o.
Proof.
  intros st n o H. destruct (find_option st n) as [[i k]|] eqn:E.
  - destruct (find_name _ _ _ _ E) as (o' & A & B & C & D). exists i. rewrite D in H.
    injection H as ->. subst k. auto.
  - apply find_none in E. congruence.
Qed.
Lemma find_inj : forall st n m i k k', find_option st n = Some (i, k) ->
  find_option st m = Some (i, k') -> n = m.
Proof.
  intros st n m i k k' H1 H2. destruct (find_name _ _ _ _ H1) as (o & A & B & _).
  destruct (find_name _ _ _ _ H2) as (o' & A' & B' & _). congruence.
Qed.
Lemma find_shape : forall st st' n, shape st = shape st' -> find_option st n = find_option st' n.
Proof.
  induction st as [|o r IH]; intros [|o' r'] n H; try discriminate; [reflexivity|].
  cbn in H. injection H as A B C. cbn. rewrite A, B, (IH r' n C). reflexivity.
Qed.

Lemma set_nth_length : forall l i b, length (set_nth i b l) = length l.
Proof. induction l as [|x r IH]; intros [|i] b; cbn; auto. Qed.
Lemma set_nth_same : forall l i b, i < length l -> nth_error (set_nth i b l) i = Some b.
Proof.
  induction l as [|x r IH]; intros [|i] b H; cbn in *; try lia; auto. apply IH. lia.
Qed.
Lemma set_nth_other : forall l i j b, i <> j -> nth_error (set_nth i b l) j = nth_error l j.
Proof.
  induction l as [|x r IH]; intros [|i] [|j] b H; cbn; try reflexivity; try congruence. apply IH. congruence.
Qed.

Lemma commit_shape : forall st temps, shape (commit st temps) = shape st.
Proof. induction st as [|o r IH]; intros [|b t]; cbn; auto. f_equal. apply IH. Qed.
Lemma commit_nth : forall st temps i o b, nth_error st i = Some o -> nth_error temps i = Some b ->
  nth_error (commit st temps) i = Some (Opt (o_name o) (o_kind o) b).
Proof.
  induction st as [|o r IH]; intros [|b t] [|i] o' b' H1 H2; cbn in *; try discriminate.
  - congruence.
  - apply (IH t i); assumption.
Qed.

(** the value of option n in temp_vals *)
Definition tget (st : list opt) (temps : list bits) (n : string) : option bits :=
  match find_option st n with Some (i, _) => nth_error temps i | None => None end.

Lemma tget_set : forall st temps n i k b m, length temps = length st ->
  find_option st n = Some (i, k) ->
  tget st (set_nth i b temps) m = if String.eqb n m then Some b else tget st temps m.
Proof.
  intros st temps n i k b m L F. unfold tget. destruct (String.eqb_spec n m) as [<-|N].
  - rewrite F. apply set_nth_same. destruct (find_name _ _ _ _ F) as (o & A & _).
    rewrite L. apply nth_error_Some. congruence.
  - destruct (find_option st m) as [[j k']|] eqn:E; [|reflexivity].
    apply set_nth_other. intros ->. apply N. eapply find_inj; eassumption.
Qed.

Lemma commit_lookup : forall st temps n o b, lookup st n = Some o -> tget st temps n = Some b ->
  lookup (commit st temps) n = Some (Opt (o_name o) (o_kind o) b).
Proof.
  intros st temps n o b H T. destruct (find_of_lookup _ _ _ H) as (i & F & N).
  unfold tget in T. rewrite F in T.
  pose proof (commit_nth _ _ _ _ _ N T) as C.
  pose proof (find_shape _ _ n (commit_shape st temps)) as FS. rewrite F in FS.
  destruct (find_name _ _ _ _ FS) as (o' & A & _ & _ & D). congruence.
Qed.

Lemma has_kind_find : forall st n k, has_kind st n k <-> exists i, find_option st n = Some (i, k).
Proof.
  intros st n k; split.
  - intros (o & H & <-). destruct (find_of_lookup _ _ _ H) as (i & F & _). eauto.
  - intros (i & F). destruct (find_name _ _ _ _ F) as (o & A & B & C & D). exists o. auto.
Qed.

(** ** the loop on a list of clauses *)
Lemma extract_written : forall nm, is_bool (write_name nm) = false /\
  extract_symbol (write_name nm) = Some (the_name nm).
Proof. intros [n|n]; split; reflexivity. Qed.

Lemma stands_for_unquote : forall d, stands_for d (unquote d).
Proof.
  intro d. unfold unquote. destruct (quoted d) as [x|] eqn:Q.
  - destruct d as [| | |items|]; try discriminate Q.
    destruct items as [|[[|q| | |]|] [|[y|] r]]; try discriminate Q. cbn in Q.
    destruct (String.eqb_spec q "quote"); [|discriminate]. injection Q as ->. subst q. constructor.
  - apply stands_self. intros x r ->. cbn in Q. discriminate.
Qed.
Lemma stands_for_fun : forall d x y, stands_for d x -> stands_for d y -> x = y.
Proof.
  intros d x y H1 H2. destruct H1 as [x r|d N]; inversion H2; subst; auto.
  - exfalso. eapply H; reflexivity.
  - exfalso. eapply N; reflexivity.
Qed.

(** what the clauses do to one temp value *)
Definition clause_val (t1 : bool) (k : kind) (n : string) (c : clause) (b : option bits) : option bits :=
  match c with
  | On nm | OnTrue nm => if String.eqb (the_name nm) n then Some (Bits 1) else b
  | Off _ => b
  | Set_ nm v => if String.eqb (the_name nm) n then
                   Some (match k, v with
                         | KInt, DNum z => Bits z
                         | _, _ => store_scm t1 (unquote v)
                         end)
                 else b
  end.
Definition clauses_val t1 k n cs b := fold_left (fun acc c => clause_val t1 k n c acc) cs b.

Lemma walk_clauses : forall t1 st cs temps,
  length temps = length st -> Forall (clause_ok st) cs ->
  exists temps', walk t1 st temps (write_clauses cs) = Ok temps' /\ length temps' = length st /\
    forall n k i, find_option st n = Some (i, k) ->
      tget st temps' n = clauses_val t1 k n cs (tget st temps n).
Proof.
  intros t1 st cs. induction cs as [|c cs IH]; intros temps L F.
  - exists temps. auto.
  - inversion F as [|? ? C F']; subst. unfold write_clauses. cbn [map concat]. rewrite map_app.
    fold (write_clauses cs).
    assert (HD : forall v r, write_clauses cs = Some v :: r -> is_false v = false).
    { destruct cs as [|c' cs']; intros v r E; [discriminate E|].
      unfold write_clauses in E. cbn in E.
      destruct c' as [nm|nm|nm|nm v']; cbn in E; injection E as <- _; destruct nm; reflexivity. }
    destruct c as [nm|nm|nm|nm v]; cbn [write_clause map app];
      destruct (extract_written nm) as [WB WE].
    + cbn in C. apply has_kind_find in C. destruct C as (i & FI).
      destruct (IH (set_nth i (Bits 1) temps)) as (t' & W & L' & G);
        [rewrite set_nth_length; exact L|exact F'|].
      exists t'. split; [|split; [exact L'|]].
      * cbn [walk]. rewrite WB, WE, FI.
        destruct (write_clauses cs) as [|[v|] r] eqn:E; try exact W.
        rewrite (HD v r eq_refl). exact W.
      * intros n k j FN. rewrite (G _ _ _ FN), (tget_set _ _ _ _ _ _ _ L FI).
        unfold clauses_val. cbn. reflexivity.
    + cbn in C. apply has_kind_find in C. destruct C as (i & FI).
      destruct (IH (set_nth i (Bits 1) temps)) as (t' & W & L' & G);
        [rewrite set_nth_length; exact L|exact F'|].
      exists t'. split; [|split; [exact L'|]].
      * cbn [walk]. rewrite WB, WE, FI. cbn [is_false is_bool]. exact W.
      * intros n k j FN. rewrite (G _ _ _ FN), (tget_set _ _ _ _ _ _ _ L FI).
        unfold clauses_val. cbn. reflexivity.
    + cbn in C. apply has_kind_find in C. destruct C as (i & FI).
      destruct (IH temps L F') as (t' & W & L' & G).
      exists t'. split; [|split; [exact L'|]].
      * cbn [walk]. rewrite WB, WE, FI. cbn [is_false is_bool]. exact W.
      * intros n k j FN. rewrite (G _ _ _ FN). reflexivity.
    + cbn in C. destruct C as [[C [z ->]]|C]; apply has_kind_find in C; destruct C as (i & FI).
      * destruct (IH (set_nth i (Bits z) temps)) as (t' & W & L' & G);
          [rewrite set_nth_length; exact L|exact F'|].
        exists t'. split; [|split; [exact L'|]].
        -- cbn [walk]. rewrite WB, WE, FI. exact W.
        -- intros n k j FN. rewrite (G _ _ _ FN), (tget_set _ _ _ _ _ _ _ L FI).
           unfold clauses_val. cbn [fold_left clause_val].
           destruct (String.eqb_spec (the_name nm) n) as [E|E]; [|reflexivity].
           subst n. rewrite FI in FN. injection FN as _ <-. reflexivity.
      * destruct (IH (set_nth i (store_scm t1 (unquote v)) temps)) as (t' & W & L' & G);
          [rewrite set_nth_length; exact L|exact F'|].
        exists t'. split; [|split; [exact L'|]].
        -- cbn [walk]. rewrite WB, WE, FI. exact W.
        -- intros n k j FN. rewrite (G _ _ _ FN), (tget_set _ _ _ _ _ _ _ L FI).
           unfold clauses_val. cbn [fold_left clause_val].
           destruct (String.eqb_spec (the_name nm) n) as [E|E]; [|reflexivity].
           subst n. rewrite FI in FN. injection FN as _ <-. reflexivity.
Qed.

Lemma initial_temps_length : forall st, length (initial_temps st) = length st.
Proof. intro st. apply map_length. Qed.
Lemma initial_temps_get : forall st n o, lookup st n = Some o ->
  tget st (initial_temps st) n = Some (match o_kind o with KBool => Bits 0 | _ => o_val o end).
Proof.
  intros st n o H. destruct (find_of_lookup _ _ _ H) as (i & F & N). unfold tget. rewrite F.
  unfold initial_temps. rewrite nth_error_map, N. reflexivity.
Qed.

(** ** the loop on any list *)
Definition val_ok (t1 : bool) (k : kind) (b : bits) : Prop :=
  match k, b with
  | KBool, Bits z => z = 0%Z \/ z = 1%Z
  | KBool, Ptr _ => False
  | KInt, Bits _ => True
  | KInt, Ptr _ => False
  | KScm, Bits z => z = 0%Z \/ (t1 = true /\ z = 1%Z)
  | KScm, Ptr d => d <> DBool false /\ (t1 = true -> d <> DBool true)
  end.

Lemma store_ok : forall t1 d, val_ok t1 KScm (store_scm t1 d).
Proof.
  intros t1 d. destruct d as [[]|s|z|l|n]; cbn; try (destruct t1; cbn); auto; split; intros; discriminate.
Qed.

Definition named_in (cur : list (option datum)) (n : string) : Prop :=
  exists d, In (Some d) cur /\ extract_symbol d = Some n.

Lemma named_cons : forall c cur n, named_in cur n -> named_in (c :: cur) n.
Proof. intros c cur n (d & I & E). exists d. split; [right; exact I|exact E]. Qed.

Lemma walk_any : forall t1 st m cur temps, length cur <= m -> length temps = length st ->
  match walk t1 st temps cur with
  | Ok temps' => length temps' = length st /\
      forall n k i, find_option st n = Some (i, k) ->
        tget st temps' n = tget st temps n \/
        (named_in cur n /\ exists b, tget st temps' n = Some b /\ val_ok t1 k b)
  | Err => True
  | _ => False
  end.
Proof.
  intros t1 st m. induction m as [|m IH]; intros cur temps LC L.
  { destruct cur; [cbn; auto|cbn in LC; lia]. }
  destruct cur as [|[d|] next]; cbn [walk].
  - split; auto.
  - assert (SK : match walk t1 st temps next with
      | Ok temps' => length temps' = length st /\
          forall n k i, find_option st n = Some (i, k) ->
          tget st temps' n = tget st temps n \/
          (named_in (Some d :: next) n /\ exists b, tget st temps' n = Some b /\ val_ok t1 k b)
      | Err => True | _ => False end).
    { specialize (IH next temps ltac:(cbn in LC; lia) L). destruct (walk t1 st temps next); auto.
      destruct IH as [A B]. split; [exact A|]. intros n k i F. destruct (B n k i F) as [|[]]; auto.
      right. split; auto. apply named_cons; auto. }
    destruct (is_bool d); [exact SK|]. destruct (extract_symbol d) as [name|] eqn:EX; [|exact SK].
    destruct (find_option st name) as [[i k0]|] eqn:FI; [|exact I].
    assert (STEP : forall b next', length next' <= m -> incl next' (Some d :: next) -> val_ok t1 k0 b ->
      match walk t1 st (set_nth i b temps) next' with
      | Ok temps' => length temps' = length st /\
          forall n k i, find_option st n = Some (i, k) ->
          tget st temps' n = tget st temps n \/
          (named_in (Some d :: next) n /\ exists b, tget st temps' n = Some b /\ val_ok t1 k b)
      | Err => True | _ => False end).
    { intros b next' L' INC VB.
      specialize (IH next' (set_nth i b temps) L' ltac:(rewrite set_nth_length; exact L)).
      destruct (walk t1 st (set_nth i b temps) next') as [t'| | | |]; auto.
      destruct IH as [A B]. split; [exact A|]. intros n k j F.
      destruct (B n k j F) as [E|[(d' & I' & E') Q]].
      - rewrite (tget_set _ _ _ _ _ _ _ L FI) in E. destruct (String.eqb_spec name n) as [<-|N]; [|auto].
        right. split; [exists d; split; [left; reflexivity|exact EX]|]. exists b. split; [exact E|].
        rewrite FI in F. injection F as _ <-. exact VB.
      - right. split; [exists d'; split; [apply INC; exact I'|exact E']|exact Q]. }
    assert (I1 : incl next (Some d :: next)) by (intros x Hx; right; exact Hx).
    assert (L1 : length next <= m) by (cbn in LC; lia).
    destruct k0.
    + destruct next as [|[v|] next2].
      * apply STEP; auto. cbn. auto.
      * destruct (is_false v); [|apply STEP; auto; cbn; auto].
        specialize (IH next2 temps ltac:(cbn in L1; lia) L). destruct (walk t1 st temps next2); auto.
        destruct IH as [A B]. split; [exact A|]. intros n k j F. destruct (B n k j F) as [|[]]; auto.
        right. split; auto. do 2 apply named_cons; auto.
      * apply STEP; auto. cbn. auto.
    + destruct next as [|[[|?|z|?|?]|] next2]; try exact I.
      apply STEP; [cbn in L1; lia| |exact I]. intros x Hx; right; right; exact Hx.
    + destruct next as [|[v|] next2]; try exact I.
      apply STEP; [cbn in L1; lia| |apply store_ok]. intros x Hx; right; right; exact Hx.
  - specialize (IH next temps ltac:(cbn in LC; lia) L). destruct (walk t1 st temps next); auto.
    destruct IH as [A B]. split; [exact A|]. intros n k i F. destruct (B n k i F) as [|[]]; auto.
    right. split; auto. apply named_cons; auto.
Qed.

(** ** reachable states *)
Definition t1_of (f : flavor) := match f with Reader => false | Debugger => true end.
Definition cr_of (f : flavor) := match f with Reader => true | Debugger => false end.
Lemma interface_eq : forall f, interface f = options_interface (t1_of f) (cr_of f).
Proof. intros []; reflexivity. Qed.

Record good (f : flavor) (st : list opt) : Prop := {
  good_shape : shape st = shape (initial f);
  good_vals : forall n o, lookup st n = Some o -> val_ok (t1_of f) (o_kind o) (o_val o);
  good_copy : f = Reader -> on st "copy" -> on st "positions"
}.

Lemma copy_shape : forall cr st, shape (copy_implies_positions cr st) = shape st.
Proof. intros cr st. unfold copy_implies_positions. destruct cr; [|reflexivity].
  destruct st as [|c [|p r]]; try reflexivity. destruct (truthy (o_val c)); reflexivity. Qed.

Lemma has_kind_shape : forall st st' n k, shape st = shape st' -> has_kind st n k -> has_kind st' n k.
Proof. intros st st' n k H K. apply has_kind_find in K. apply has_kind_find.
  rewrite <- (find_shape _ _ n H). exact K. Qed.

(** what the copy rule does, name by name *)
Lemma reader_shape : forall st, shape st = shape read_table -> exists a b c d,
  st = [Opt "copy" KBool a; Opt "positions" KBool b; Opt "case-insensitive" KBool c; Opt "keywords" KScm d].
Proof.
  intros st H. destruct st as [|[n1 k1 a] [|[n2 k2 b] [|[n3 k3 c] [|[n4 k4 d] [|]]]]]; try discriminate H.
  cbn in H. injection H as -> -> -> -> -> -> -> ->. eauto.
Qed.

Lemma copy_lookup : forall f st n o, shape st = shape (initial f) -> lookup st n = Some o ->
  lookup (copy_implies_positions (cr_of f) st) n =
  Some (if (match f with Reader => String.eqb n "positions" && match lookup st "copy" with
                                   Some c => truthy (o_val c) | None => false end
            | Debugger => false end)
        then Opt (o_name o) (o_kind o) (Bits 1) else o).
Proof.
  intros [] st n o H Q; [|exact Q]. destruct (reader_shape st H) as (a & b & c & d & ->).
  unfold copy_implies_positions. cbn [cr_of o_val].
  change (lookup _ "copy") with (Some (Opt "copy" KBool a)). cbn [o_val].
  destruct (String.eqb_spec n "positions") as [->|N].
  - cbn in Q. injection Q as <-. destruct (truthy a); reflexivity.
  - cbn [andb]. destruct (truthy a); [|exact Q]. unfold lookup in *. cbn [find o_name] in *.
    destruct (String.eqb "copy" n); [exact Q|].
    replace (String.eqb "positions" n) with false in * by (symmetry; apply String.eqb_neq; congruence).
    exact Q.
Qed.

Lemma on_truthy : forall st n o, lookup st n = Some o -> o_kind o = KBool ->
  (on st n <-> truthy (o_val o) = true).
Proof.
  intros st n o H K. split.
  - intros (o' & H' & _ & N). rewrite H in H'. injection H' as <-.
    destruct (o_val o) as [z|d]; cbn; auto. destruct (Z.eqb_spec z 0); auto. subst; congruence.
  - intro T. exists o. repeat split; auto. intro E. rewrite E in T. discriminate T.
Qed.

Lemma on_copy : forall f st n, shape st = shape (initial f) -> has_kind st n KBool ->
  (on (copy_implies_positions (cr_of f) st) n <-> with_copy_rule f (on st) n).
Proof.
  intros f st n H (o & L & K). pose proof (copy_lookup f st n o H L) as C.
  unfold with_copy_rule. destruct f.
  - destruct (String.eqb_spec n "positions") as [->|N].
    + destruct (lookup st "copy") as [c|] eqn:LC.
      * assert (KC : o_kind c = KBool).
        { destruct (reader_shape st H) as (? & ? & ? & ? & ->). cbn in LC. injection LC as <-. reflexivity. }
        pose proof (on_truthy _ _ _ LC KC) as OC. cbn [andb] in C.
        destruct (truthy (o_val c)).
        -- split; [intros _; right; repeat split; apply OC; reflexivity|].
           intros _. eexists. split; [exact C|]. cbn. split; [exact K|discriminate].
        -- rewrite (on_truthy _ _ _ C K), (on_truthy _ _ _ L K), OC. cbn. intuition.
      * exfalso. destruct (reader_shape st H) as (? & ? & ? & ? & ->). discriminate LC.
    + cbn [andb] in C. rewrite (on_truthy _ _ _ C K), (on_truthy _ _ _ L K). cbn. intuition; congruence.
  - rewrite (on_truthy _ _ _ C K), (on_truthy _ _ _ L K). intuition; discriminate.
Qed.

Lemma value_copy : forall f st n d, shape st = shape (initial f) -> ~ has_kind st n KBool ->
  (value (copy_implies_positions (cr_of f) st) n d <-> value st n d).
Proof.
  intros f st n d H NB. unfold value.
  pose proof (copy_shape (cr_of f) st) as CS.
  destruct (lookup st n) as [o|] eqn:L.
  - pose proof (copy_lookup f st n o H L) as C.
    assert (E : (match f with Reader => String.eqb n "positions" && match lookup st "copy" with
                                   Some c => truthy (o_val c) | None => false end
            | Debugger => false end) = false).
    { destruct f; [|reflexivity]. destruct (String.eqb_spec n "positions") as [->|]; [|reflexivity].
      exfalso. apply NB. destruct (reader_shape st H) as (? & ? & ? & ? & ->). eexists; split; reflexivity. }
    rewrite E in C. rewrite C. reflexivity.
  - apply find_none in L. rewrite <- (find_shape _ _ n CS) in L. apply find_none in L. rewrite L.
    split; intros (o & X & _); discriminate X.
Qed.

Lemma good_initial : forall f, good f (initial f).
Proof.
  intro f. split; [reflexivity| |].
  - intros n o H. apply find_some in H. destruct H as [I _].
    destruct f; cbn in I; repeat (destruct I as [<-|I]; [cbn; auto|]); destruct I.
  - intros -> H. exists (Opt "positions" KBool (Bits 1)). repeat split; discriminate.
Qed.

Lemma commit_good : forall f st temps, good f st ->
  length temps = length st ->
  (forall n k i, find_option st n = Some (i, k) -> exists b, tget st temps n = Some b /\ val_ok (t1_of f) k b) ->
  good f (copy_implies_positions (cr_of f) (commit st temps)).
Proof.
  intros f st temps G L V.
  assert (SH : shape (commit st temps) = shape (initial f)) by (rewrite commit_shape; apply G).
  assert (VC : forall n o, lookup (commit st temps) n = Some o -> val_ok (t1_of f) (o_kind o) (o_val o)).
  { intros n o H. destruct (find_of_lookup _ _ _ H) as (i & F & _).
    rewrite (find_shape _ _ n (commit_shape st temps)) in F. destruct (V _ _ _ F) as (b & T & VB).
    destruct (find_name _ _ _ _ F) as (o' & _ & _ & K & L').
    rewrite (commit_lookup _ _ _ _ _ L' T) in H. injection H as <-. cbn. rewrite K. exact VB. }
  split.
  - rewrite copy_shape. exact SH.
  - intros n o H.
    destruct (lookup (commit st temps) n) as [o0|] eqn:L0.
    + rewrite (copy_lookup f _ n o0 SH L0) in H. injection H as <-.
      specialize (VC n o0 L0).
      destruct (match f with Reader => _ | Debugger => _ end) eqn:E; [|exact VC].
      destruct f; [|discriminate E]. apply andb_true_iff in E. destruct E as [E _].
      apply String.eqb_eq in E. subst n. destruct (reader_shape _ SH) as (? & ? & ? & ? & E).
      rewrite E in L0. cbn in L0. injection L0 as <-. cbn. auto.
    + apply find_none in L0. rewrite <- (find_shape _ _ n (copy_shape (cr_of f) _)) in L0.
      apply find_none in L0. congruence.
  - intros FR OC. subst f.
    destruct (reader_shape _ SH) as (a & b & c & d & E). rewrite E in *.
    cbn [cr_of copy_implies_positions o_val] in *. destruct (truthy a) eqn:T.
    + eexists. split; [reflexivity|]. cbn. split; [reflexivity|discriminate].
    + exfalso. destruct OC as (o & L' & _ & N). cbn in L'. injection L' as <-. cbn in N.
      destruct a as [z|]; [|discriminate T]. cbn in T. destruct (Z.eqb_spec z 0); [subst|discriminate]. apply N. reflexivity.
Qed.

Lemma initial_temps_ok : forall f st, good f st -> forall n k i, find_option st n = Some (i, k) ->
  exists b, tget st (initial_temps st) n = Some b /\ val_ok (t1_of f) k b.
Proof.
  intros f st G n k i F. destruct (find_name _ _ _ _ F) as (o & _ & _ & K & L).
  rewrite (initial_temps_get _ _ _ L). eexists. split; [reflexivity|].
  pose proof (good_vals _ _ G _ _ L) as V. rewrite K in *. destruct k; cbn; auto.
Qed.

Lemma change_good : forall f args st, good f st ->
  good f (snd (change_setting (t1_of f) (cr_of f) args st)) /\
  (fst (change_setting (t1_of f) (cr_of f) args st) = Ok tt \/
   (fst (change_setting (t1_of f) (cr_of f) args st) = Err /\
    snd (change_setting (t1_of f) (cr_of f) args st) = st)).
Proof.
  intros f args st G. unfold change_setting. destruct args as [|c args]; [cbn; auto|].
  pose proof (walk_any (t1_of f) st _ (c :: args) (initial_temps st) (le_n _) (initial_temps_length st)) as W.
  destruct (walk (t1_of f) st (initial_temps st) (c :: args)) as [t'| | | |]; try (cbn; tauto).
  - destruct W as [L W]. cbn [fst snd]. split; [|auto]. apply commit_good; auto.
    intros n k i F. destruct (W _ _ _ F) as [E|[_ Q]]; [|exact Q].
    rewrite E. eapply initial_temps_ok; eauto.
Qed.

Lemma reachable_good : forall f st, reachable f st -> good f st.
Proof.
  intros f st H. induction H as [|st args H IH]; [apply good_initial|].
  rewrite interface_eq. unfold options_interface.
  destruct args as [|[[b|s|z|items|n]|] rest]; try exact IH.
  pose proof (change_good f items st IH) as [A B].
  destruct (change_setting (t1_of f) (cr_of f) items st) as [r st']. cbn in *.
  destruct r; cbn; exact A.
Qed.
