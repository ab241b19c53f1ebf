(** Proofs about locations of expanded code. *)
From Coq Require Import Lia.
From Verif Require Import Base CopyModel CopySpec.
Local Open Scope list_scope.
Local Open Scope Z_scope.

Section obj_ind.
  Variable P : obj -> Prop.
  Hypothesis Hleaf : forall i, P (Leaf i).
  Hypothesis Hpair : forall i l, (forall e, In (Some e) l -> P e) -> P (Pair i l).
  Fixpoint obj_ind' (o : obj) : P o :=
    match o with
    | Leaf i => Hleaf i
    | Pair i l => Hpair i l
        ((fix go (l : list (option obj)) : forall e, In (Some e) l -> P e :=
            match l return forall e, In (Some e) l -> P e with
            | [] => fun e H => match H with end
            | x :: r => fun e H =>
                match H with
                | or_introl E => match x as x0 return x0 = Some e -> P e with
                                 | Some y => fun E => eq_ind y P (obj_ind' y) e (f_equal (fun z => match z with Some a => a | None => y end) E)
                                 | None => fun E => False_ind _ (eq_ind None (fun z => match z with None => True | Some _ => False end) Logic.I (Some e) E)
                                 end E
                | or_intror H => go r e H
                end
            end) l)
    end.
End obj_ind.

Lemma nth_set_same {A} n (v : A) : forall l, (n < length l)%nat -> nth_error (set_nth n v l) n = Some v.
Proof. induction n; destruct l; cbn; intros H; try lia; auto. apply IHn. lia. Qed.
Lemma nth_set_other {A} n k (v : A) : k <> n -> forall l, nth_error (set_nth n v l) k = nth_error l k.
Proof. revert k. induction n; intros k N [|a l]; cbn; auto; destruct k; cbn; auto; try congruence. Qed.
Lemma nth_some_lt {A} (l : list A) n x : nth_error l n = Some x -> (n < length l)%nat.
Proof. intro H. apply nth_error_Some. congruence. Qed.

(* the state after o's place has been replaced by (f, line, col), a new string *)
Definition same_others (m m' : mem) (o : nat) : Prop := forall x, x <> o -> place_of m' x = place_of m x.

(* replacing a location: free the old name, allocate or not, store *)
Lemma replace_ok m o f line col :
  owned m ->
  exists m1, free_str m (match m_loc m o with Some l => l_file l | None => None end) = Ok m1 /\ m_loc m1 = m_loc m /\
    (forall x l p, x <> o -> m_loc m x = Some l -> l_file l = Some p -> nth_error (m_bufs m1) p = nth_error (m_bufs m) p) /\
    owned (put m1 o None) /\
    match f with
    | Some t => let m2 := put (fst (strdup m1 t)) o (Some (mkL (Some (snd (strdup m1 t))) line col)) in
        owned m2 /\ place_of m2 o = Some (Some t, line, col) /\ same_others m m2 o
    | None => let m2 := put m1 o (Some (mkL None line col)) in owned m2 /\ place_of m2 o = Some (None, line, col) /\ same_others m m2 o
    end.
Proof.
  intros (A & D).
  assert (F : exists m1, free_str m (match m_loc m o with Some l => l_file l | None => None end) = Ok m1 /\ m_loc m1 = m_loc m /\
    (forall x l p, x <> o -> m_loc m x = Some l -> l_file l = Some p -> nth_error (m_bufs m1) p = nth_error (m_bufs m) p)).
  { destruct (m_loc m o) as [lo|] eqn:Eo; cbn [free_str]; [|eexists; repeat split; eauto].
    destruct (l_file lo) as [p|] eqn:Ep; cbn [free_str]; [|eexists; repeat split; eauto].
    destruct (A o lo p Eo Ep) as (s & Hs). rewrite Hs. eexists. split; [reflexivity|]. split; [reflexivity|].
    intros x l q N X Q. cbn [m_bufs]. apply nth_set_other. intros ->. apply N. eapply D; eauto. }
  destruct F as (m1 & E & L & B). exists m1. split; [exact E|]. split; [exact L|]. split; [exact B|].
  assert (A1 : forall x l p, x <> o -> m_loc m1 x = Some l -> l_file l = Some p -> exists s, nth_error (m_bufs m1) p = Some (Some s)).
  { intros x l p N X Q. rewrite L in X. rewrite (B x l p N X Q). eauto. }
  assert (PL : forall x, x <> o -> place_of m1 x = place_of m x).
  { intros x N. unfold place_of. rewrite L. destruct (m_loc m x) as [l|] eqn:X; [|reflexivity]. destruct (l_file l) as [p|] eqn:Q; [|reflexivity]. now rewrite (B x l p N X Q). }
  split.
  { split.
    - intros x l p. cbn [put m_loc m_bufs]. destruct (Nat.eqb_spec x o); [discriminate|]. eauto.
    - intros x y l l' p. cbn [put m_loc m_bufs]. destruct (Nat.eqb_spec x o), (Nat.eqb_spec y o); try discriminate. rewrite L. eauto. }
  destruct f as [t|]; cbn zeta.
  - cbn [strdup fst snd put m_loc m_bufs]. split; [split|split].
    + intros x l p. cbn [put m_loc m_bufs]. destruct (Nat.eqb_spec x o).
      * intros [= <-] [= <-]. exists t. rewrite nth_error_app2, Nat.sub_diag by lia. reflexivity.
      * intros X Q. destruct (A1 x l p n X Q) as (s & Hs). exists s. rewrite nth_error_app1; auto. eapply nth_some_lt; eauto.
    + intros x y l l' p. cbn [put m_loc m_bufs]. destruct (Nat.eqb_spec x o), (Nat.eqb_spec y o); try congruence.
      * intros [= <-] Y [= <-] Q. exfalso. destruct (A1 y l' _ n Y Q) as (s & Hs). apply nth_some_lt in Hs. lia.
      * intros X [= <-] Q [= <-]. exfalso. destruct (A1 x l _ n X Q) as (s & Hs). apply nth_some_lt in Hs. lia.
      * rewrite L. eauto.
    + unfold place_of. cbn [put m_loc m_bufs]. rewrite Nat.eqb_refl. cbn [l_file l_line l_col]. rewrite nth_error_app2, Nat.sub_diag by lia. reflexivity.
    + intros x N. rewrite <- PL by assumption. unfold place_of. cbn [put m_loc m_bufs].
      destruct (Nat.eqb_spec x o); [congruence|]. destruct (m_loc m1 x) as [l|] eqn:X; [|reflexivity]. destruct (l_file l) as [p|] eqn:Q; [|reflexivity].
      destruct (A1 x l p n X Q) as (s & Hs). rewrite nth_error_app1; [reflexivity|]. eapply nth_some_lt; eauto.
  - split; [split|split].
    + intros x l p. cbn [put m_loc m_bufs]. destruct (Nat.eqb_spec x o); [intros [= <-]; discriminate|]. eauto.
    + intros x y l l' p. cbn [put m_loc m_bufs]. destruct (Nat.eqb_spec x o), (Nat.eqb_spec y o); try (intros; congruence).
      * intros [= <-]; discriminate.
      * intros ? [= <-] ?; discriminate.
      * rewrite L. eauto.
    + unfold place_of. cbn [put m_loc m_bufs]. rewrite Nat.eqb_refl. reflexivity.
    + intros x N. rewrite <- PL by assumption. unfold place_of. cbn [put m_loc m_bufs]. destruct (Nat.eqb_spec x o); [congruence|reflexivity].
Qed.
(* giving an object an empty location changes nothing *)
Lemma owned_fresh m o : owned m -> m_loc m o = None -> owned (put m o (Some (mkL None 0 0))).
Proof.
  intros (A & D) N. split.
  - intros x l p. cbn [put m_loc m_bufs]. destruct (Nat.eqb_spec x o); [intros [= <-]; discriminate|]. eauto.
  - intros x y l l' p. cbn [put m_loc m_bufs]. destruct (Nat.eqb_spec x o), (Nat.eqb_spec y o); try (intros; congruence); eauto.
    + intros [= <-]; discriminate.
    + intros ? [= <-] ?; discriminate.
Qed.
Lemma place_put m o l x : x <> o -> place_of (put m o l) x = place_of m x.
Proof. intro N. unfold place_of. cbn [put m_loc m_bufs]. destruct (Nat.eqb_spec x o); [congruence|reflexivity]. Qed.
Lemma place_none m o : place_of m o = None <-> m_loc m o = None.
Proof. unfold place_of. destruct (m_loc m o); split; congruence. Qed.

Lemma set_ok m o f line col : owned m -> exists m', set_location m (Some o) f line col = Ok m' /\ owned m' /\ same_others m m' o /\
  place_of m' o = Some (match f with Some n => Some n | None => match place_of m o with Some (n, _, _) => n | None => None end end, line, col).
Proof.
  intro W. unfold set_location. set (m0 := match m_loc m o with Some _ => m | None => put m o (Some (mkL None 0 0)) end).
  assert (W0 : owned m0) by (subst m0; destruct (m_loc m o) eqn:E; auto using owned_fresh).
  assert (S0 : same_others m m0 o) by (subst m0; destruct (m_loc m o); intros x N; auto; now apply place_put).
  assert (P0 : match place_of m0 o with Some (n, _, _) => n | None => None end = match place_of m o with Some (n, _, _) => n | None => None end).
  { subst m0. destruct (m_loc m o) eqn:E; [reflexivity|]. unfold place_of. rewrite E. cbn [put m_loc]. rewrite Nat.eqb_refl. reflexivity. }
  destruct f as [t|].
  - destruct (replace_ok m0 o (Some t) line col W0) as (m1 & F & _ & _ & _ & W1 & P1 & S1). rewrite F. cbn [bind]. cbn zeta in *. cbn [strdup fst snd] in *.
    eexists. split; [reflexivity|]. split; [exact W1|]. split; [intros x N; rewrite S1, S0; auto|exact P1].
  - eexists. split; [reflexivity|].
    assert (L0 : exists l, m_loc m0 o = Some l) by (subst m0; destruct (m_loc m o) eqn:E; [eauto|cbn [put m_loc]; rewrite Nat.eqb_refl; eauto]).
    destruct L0 as (l & L0). rewrite <- P0. clearbody m0. rewrite L0. destruct W0 as (A & D). split; [split|split].
    + intros x k p. cbn [put m_loc m_bufs]. destruct (Nat.eqb_spec x o); [intros [= <-]; cbn [l_file]|]; eauto.
    + intros x y k k' p. cbn [put m_loc m_bufs]. destruct (Nat.eqb_spec x o), (Nat.eqb_spec y o); try (intros; congruence); eauto.
      * intros [= <-] Y; cbn [l_file]; intros Q Q'. subst x. eapply D; eauto.
      * intros X [= <-]; cbn [l_file]; intros Q Q'. subst y. eapply D; eauto.
    + intros x N. rewrite place_put by assumption. now apply S0.
    + unfold place_of. cbn [put m_loc m_bufs]. rewrite Nat.eqb_refl, L0. reflexivity.
Qed.
Lemma copy_ok m d s : owned m -> d <> s -> exists m', copy_location m (Some d) (Some s) = Ok m' /\ owned m' /\ same_others m m' d /\
  place_of m' d = match place_of m s with Some p => Some p | None => place_of m d end.
Proof.
  intros W N. unfold copy_location. destruct (m_loc m s) as [ls|] eqn:Es.
  2: { exists m. split; [reflexivity|]. split; auto. split; [intros x _; reflexivity|]. unfold place_of at 2. rewrite Es. reflexivity. }
  set (m0 := match m_loc m d with Some _ => m | None => put m d (Some (mkL None 0 0)) end).
  assert (W0 : owned m0) by (subst m0; destruct (m_loc m d) eqn:E; auto using owned_fresh).
  assert (S0 : same_others m m0 d) by (subst m0; destruct (m_loc m d); intros x M; auto; now apply place_put).
  assert (L0 : m_loc m0 s = Some ls).
  { subst m0. destruct (m_loc m d); [auto|]. cbn [put m_loc]. destruct (Nat.eqb_spec s d); congruence. }
  assert (P0 : place_of m s = place_of m0 s) by (symmetry; apply S0; congruence).
  rewrite P0. clearbody m0.
  destruct (l_file ls) as [p|] eqn:Q.
  - destruct (proj1 W0 s ls p L0 Q) as (t & Ht).
    destruct (replace_ok m0 d (Some t) (l_line ls) (l_col ls) W0) as (m1 & F & L1 & B1 & _ & W1 & P1 & S1). rewrite F. cbn [bind].
    rewrite L1, L0, Q. unfold read_str. rewrite (B1 s ls p (not_eq_sym N) L0 Q), Ht. cbn [bind]. cbn zeta in *. cbn [strdup fst snd bind] in *.
    eexists. split; [reflexivity|]. split; [exact W1|]. split; [intros x M; rewrite S1, S0; auto|].
    rewrite P1. unfold place_of. rewrite L0, Q, Ht. reflexivity.
  - destruct (replace_ok m0 d None (l_line ls) (l_col ls) W0) as (m1 & F & L1 & B1 & _ & W1 & P1 & S1). rewrite F. cbn [bind].
    rewrite L1, L0, Q. cbn [bind]. cbn zeta in *.
    eexists. split; [reflexivity|]. split; [exact W1|]. split; [intros x M; rewrite S1, S0; auto|].
    rewrite P1. unfold place_of. rewrite L0, Q. reflexivity.
Qed.
Lemma sweep_ok m o : owned m -> exists m', sweep m o = Ok m' /\ owned m' /\ same_others m m' o /\ place_of m' o = None.
Proof.
  intro W. unfold sweep. destruct (m_loc m o) as [l|] eqn:E.
  - destruct (replace_ok m o None 0 0 W) as (m1 & F & L1 & B1 & WN & _ & _ & S1). rewrite E in F. rewrite F. cbn [bind].
    eexists. split; [reflexivity|]. split; [exact WN|]. split.
    + intros x N. rewrite <- S1 by assumption. unfold place_of. cbn [put m_loc m_bufs]. destruct (Nat.eqb_spec x o); [congruence|reflexivity].
    + unfold place_of. cbn [put m_loc]. rewrite Nat.eqb_refl. reflexivity.
  - exists m. split; [reflexivity|]. split; auto. split; [intros x _; reflexivity|]. now apply place_none.
Qed.

(** ** copying into a tree *)
(* the loop of copy_source_location_recursive *)
Fixpoint walk (m : mem) (ds ss : list (option obj)) : res mem :=
  match ds, ss with
  | d :: ds, s :: ss =>
      do m <- match d, s with Some d, Some s => copy_rec m d s | _, _ => Ok m end;
      walk m ds ss
  | _, _ => Ok m
  end.
Lemma copy_rec_eq m d s : copy_rec m d s =
  match m_loc m (id_of s) with
  | None => Ok m
  | Some _ => do m <- copy_location m (Some (id_of d)) (Some (id_of s));
              match d, s with Pair _ ds, Pair _ ss => walk m ds ss | _, _ => Ok m end
  end.
Proof.
  destruct d as [i|i ds]; cbn [copy_rec id_of]; [reflexivity|]. destruct (m_loc m (id_of s)); [|reflexivity].
  destruct (copy_location m (Some i) (Some (id_of s))) as [m1| | | |]; reflexivity.
Qed.
(* the places after are places before, the object's own or of an object in S *)
Definition from (S : nat -> Prop) (m m' : mem) : Prop :=
  forall x, place_of m' x = place_of m x \/ exists y, S y /\ place_of m' x = place_of m y.
Lemma from_refl S m : from S m m. Proof. now left. Qed.
Lemma from_trans S m1 m2 m3 : from S m1 m2 -> from S m2 m3 -> from S m1 m3.
Proof.
  intros A B x. destruct (B x) as [E|(y & Y & E)].
  - rewrite E. apply A.
  - rewrite E. destruct (A y) as [E'|(z & Z & E')]; rewrite E'; right; eauto.
Qed.
Lemma from_mono (S T : nat -> Prop) m m' : (forall x, S x -> T x) -> from S m m' -> from T m m'.
Proof. intros I A x. destruct (A x) as [E|(y & Y & E)]; [now left|right; eauto]. Qed.
Definition kept (m m' : mem) : Prop := forall x, place_of m x <> None -> place_of m' x <> None.
(* what one run of the copying gives *)
Definition good (D S : nat -> Prop) (m m' : mem) : Prop :=
  owned m' /\ (forall x, ~ D x -> place_of m' x = place_of m x) /\ from S m m' /\ kept m m'.
Lemma good_refl D S m : owned m -> good D S m m.
Proof. intro W. split; [exact W|]. split; [auto|]. split; [apply from_refl|]. intros x H; exact H. Qed.
Lemma good_trans D S m1 m2 m3 : good D S m1 m2 -> good D S m2 m3 -> good D S m1 m3.
Proof.
  intros (A1 & B1 & C1 & D1) (A2 & B2 & C2 & D2). split; [exact A2|]. split; [intros x N; now rewrite B2, B1|].
  split; [eapply from_trans; eauto|]. intros x H. auto.
Qed.
Lemma good_mono (D D' S S' : nat -> Prop) m m' : (forall x, D x -> D' x) -> (forall x, S x -> S' x) -> good D S m m' -> good D' S' m m'.
Proof. intros I J (A & B & C & K). split; [exact A|]. split; [intros x N; apply B; auto|]. split; [eapply from_mono; eauto|exact K]. Qed.
Lemma copy_good m d s : owned m -> d <> s -> exists m', copy_location m (Some d) (Some s) = Ok m' /\ good (fun x => x = d) (fun y => y = s) m m' /\
  place_of m' d = match place_of m s with Some p => Some p | None => place_of m d end.
Proof.
  intros W N. destruct (copy_ok m d s W N) as (m' & E & W' & O & P). exists m'. split; [exact E|]. split; [|exact P].
  split; [exact W'|]. split; [intros x M; apply O; exact M|]. split.
  - intro x. destruct (Nat.eq_dec x d) as [->|M]; [|left; apply O; exact M]. rewrite P. destruct (place_of m s) eqn:Q; [|now left].
    right. exists s. split; congruence.
  - intros x H. destruct (Nat.eq_dec x d) as [->|M]; [|rewrite O; auto]. rewrite P. destruct (place_of m s); congruence.
Qed.
Lemma rec_good : forall d s m, owned m -> no_own_position d s ->
  exists m', copy_rec m d s = Ok m' /\ good (part d) (part s) m m' /\ (place_of m (id_of s) <> None -> place_of m' (id_of d) <> None).
Proof.
  assert (W : forall ds, (forall e, In (Some e) ds -> forall s m, owned m -> no_own_position e s -> exists m', copy_rec m e s = Ok m' /\ good (part e) (part s) m m' /\ (place_of m (id_of s) <> None -> place_of m' (id_of e) <> None)) ->
    forall ss m, owned m -> (forall k a b, nth_error ds k = Some (Some a) -> nth_error ss k = Some (Some b) -> no_own_position a b) ->
    exists m', walk m ds ss = Ok m' /\ good (fun x => exists e, In (Some e) ds /\ part e x) (fun y => exists e, In (Some e) ss /\ part e y) m m').
  { induction ds as [|d ds IH]; intros HD ss m O N; [exists m; split; [reflexivity|now apply good_refl]|].
    destruct ss as [|s ss]; [exists m; split; [reflexivity|now apply good_refl]|]. cbn [walk].
    assert (X : exists m1, match d, s with Some d0, Some s0 => copy_rec m d0 s0 | _, _ => Ok m end = Ok m1 /\
      good (fun x => exists e, In (Some e) (d :: ds) /\ part e x) (fun y => exists e, In (Some e) (s :: ss) /\ part e y) m m1).
    { destruct d as [d|]; [|exists m; split; [reflexivity|now apply good_refl]].
      destruct s as [s|]; [|exists m; split; [reflexivity|now apply good_refl]].
      destruct (HD d (or_introl eq_refl) s m O (N 0%nat d s eq_refl eq_refl)) as (m1 & E & G & _). exists m1. split; [exact E|].
      eapply good_mono; [| |exact G]; intros x H; [exists d|exists s]; split; auto; now left. }
    destruct X as (m1 & -> & G1). cbn [bind]. destruct (IH (fun e I => HD e (or_intror I)) ss m1 (proj1 G1)) as (m2 & E2 & G2).
    { intros k a b Ha Hb. apply (N (S k) a b Ha Hb). }
    exists m2. split; [exact E2|]. eapply good_trans; [exact G1|]. eapply good_mono; [| |exact G2]; intros x (e & I & P); exists e; split; auto; now right. }
  intro d. induction d as [i|i ds IH] using obj_ind'; intros s m O N; rewrite copy_rec_eq.
  - destruct (m_loc m (id_of s)) eqn:E.
    2: { exists m. split; [reflexivity|]. split; [now apply good_refl|]. intro H. exfalso. apply H. now apply place_none. }
    destruct (copy_good m i (id_of s) O) as (m1 & C & G & P).
    { intros ->. apply (N (id_of s)). apply (opp_self (Leaf (id_of s)) s). }
    cbn [id_of]. rewrite C. cbn [bind]. exists m1. split; [reflexivity|]. split.
    + eapply good_mono; [| |exact G]; intros x ->; [apply (part_self (Leaf i))|apply part_self].
    + intro H. rewrite P. destruct (place_of m (id_of s)); congruence.
  - destruct (m_loc m (id_of s)) eqn:E.
    2: { exists m. split; [reflexivity|]. split; [now apply good_refl|]. intro H. exfalso. apply H. now apply place_none. }
    destruct (copy_good m i (id_of s) O) as (m1 & C & G & P).
    { intros ->. apply (N (id_of s)). apply (opp_self (Pair (id_of s) ds) s). }
    cbn [id_of]. rewrite C. cbn [bind].
    assert (P1 : place_of m1 i <> None) by (rewrite P; destruct (place_of m (id_of s)) eqn:Q; [discriminate|]; apply place_none in Q; congruence).
    assert (G' : good (part (Pair i ds)) (part s) m m1).
    { eapply good_mono; [| |exact G]; intros x ->; [apply (part_self (Pair i ds))|apply part_self]. }
    destruct s as [j|j ss]; [exists m1; split; [reflexivity|]; split; auto|].
    destruct (W ds IH ss m1 (proj1 G)) as (m2 & E2 & G2).
    { intros k a b Ha Hb x Ox. apply (N x). eapply opp_elem; eauto. }
    exists m2. split; [exact E2|]. split.
    + eapply good_trans; [exact G'|]. eapply good_mono; [| |exact G2]; intros x (e & I & Pe); eapply part_elem; eauto.
    + intros _. apply G2. exact P1.
Qed.
Lemma relocate_eq d s m m' : owned m -> no_own_position d s -> copy_rec m d s = Ok m' -> relocate m d s = Ok m'.
Proof.
  intros O N E. unfold relocate. rewrite E. cbn [bind]. destruct (rec_good d s m O N) as (m1 & E1 & _ & K). rewrite E in E1. injection E1 as <-.
  destruct (m_loc m' (id_of d)) eqn:L; [reflexivity|]. destruct (m_loc m (id_of s)) eqn:Q.
  - exfalso. apply K; [|now apply place_none]. intro H. apply place_none in H. congruence.
  - rewrite copy_rec_eq, Q in E. injection E as <-. now rewrite Q.
Qed.
(* the top keeps what it was given *)
Lemma rec_top d s m m' : owned m -> no_own_position d s -> ~ proper_part d (id_of d) -> copy_rec m d s = Ok m' ->
  place_of m (id_of s) <> None -> place_of m' (id_of d) = place_of m (id_of s).
Proof.
  intros O N PP E H. rewrite copy_rec_eq in E. destruct (m_loc m (id_of s)) eqn:Q; [|exfalso; apply H; now apply place_none].
  destruct (copy_good m (id_of d) (id_of s) O) as (m1 & C & G & P).
  { intro X. apply (N (id_of d)). pose proof (opp_self d s) as Y. now rewrite <- X in Y. }
  rewrite C in E. cbn [bind] in E. assert (P1 : place_of m1 (id_of d) = place_of m (id_of s)) by (rewrite P; destruct (place_of m (id_of s)); congruence).
  rewrite <- P1. destruct d as [i|i ds]; [injection E as <-; reflexivity|]. destruct s as [j|j ss]; [injection E as <-; reflexivity|].
  cbn [id_of] in *. assert (X : forall ds ss m m', (forall k a b, nth_error ds k = Some (Some a) -> nth_error ss k = Some (Some b) -> no_own_position a b) -> owned m ->
    (~ exists e, In (Some e) ds /\ part e i) -> walk m ds ss = Ok m' -> place_of m' i = place_of m i).
  { clear. induction ds as [|d ds IH]; intros ss m m' N O X E; [injection E as <-; reflexivity|]. destruct ss as [|s ss]; [injection E as <-; reflexivity|].
    cbn [walk] in E. destruct (match d, s with Some d0, Some s0 => copy_rec m d0 s0 | _, _ => Ok m end) as [m1| | | |] eqn:F; try discriminate. cbn [bind] in E.
    assert (Y : owned m1 /\ place_of m1 i = place_of m i).
    { destruct d as [d|]; [|injection F as <-; auto]. destruct s as [s|]; [|injection F as <-; auto].
      destruct (rec_good d s m O (N 0%nat d s eq_refl eq_refl)) as (m2 & E2 & G2 & _). rewrite F in E2. injection E2 as <-.
      split; [apply G2|]. apply G2. intro Z. apply X. exists d. split; [now left|exact Z]. }
    destruct Y as (Y1 & Y2). rewrite <- Y2. eapply (IH ss m1 m'); eauto.
    - intros k a b Ha Hb. apply (N (S k) a b Ha Hb).
    - intros (e & I & Z). apply X. exists e. split; [now right|exact Z]. }
  eapply (X ds ss m1 m'); eauto.
  - intros k a b Ha Hb x Ox. apply (N x). eapply opp_elem; eauto.
  - apply G.
Qed.

(** ** expansions that share nothing with the call *)
Definition flat (l : list (option obj)) : list nat := flat_map (fun e => match e with Some e => parts e | None => [] end) l.
Lemma part_parts o : forall x, part o x <-> In x (parts o).
Proof.
  induction o as [i|i l IH] using obj_ind'; intro x.
  - split; [intro H; inversion H; subst; now left|]. intros [<-|[]]. apply (part_self (Leaf i)).
  - split.
    + intro H. inversion H as [o|j k e z I P]; subst; [now left|]. right. apply in_flat_map. exists (Some e). split; [exact I|]. now apply IH.
    + intros [<-|H]; [apply (part_self (Pair i l))|]. apply in_flat_map in H. destruct H as ([e|] & I & P); [|destruct P].
      eapply part_elem; [exact I|]. now apply IH.
Qed.
Lemma in_flat l k e x : nth_error l k = Some (Some e) -> In x (parts e) -> In x (flat l).
Proof. intros H P. apply in_flat_map. exists (Some e). split; [eapply nth_error_In; eauto|exact P]. Qed.
Lemma opposite_parts d : forall s x y, opposite d s x y -> In x (parts d) /\ In y (parts s).
Proof.
  intros s x y H. induction H as [a b|i j k l l' a b x y A B _ (P & Q)].
  - split; [destruct a|destruct b]; now left.
  - split; right; eapply in_flat; eauto.
Qed.
Lemma oppl_parts m d : forall s x y, opposite_placed m d s x y -> In x (parts d) /\ In y (parts s).
Proof.
  intros s x y H. induction H as [a b _|i j k l l' a b x y _ A B _ (P & Q)].
  - split; [destruct a|destruct b]; now left.
  - split; right; eapply in_flat; eauto.
Qed.
Lemma oppl_transport m m' a b x y : (forall z, In z (parts b) -> place_of m' z = place_of m z) -> opposite_placed m a b x y -> opposite_placed m' a b x y.
Proof.
  intros T H. induction H as [a b L|i j k l l' a b x y L A B H IH].
  - constructor. rewrite T; [exact L|]. destruct b; now left.
  - econstructor; eauto.
    + rewrite T; [exact L|]. now left.
    + apply IH. intros z I. apply T. right. eapply in_flat; eauto.
Qed.
Definition disjoint (a b : list nat) : Prop := forall x, In x a -> ~ In x b.
Lemma disjoint_no_own d s : disjoint (parts d) (parts s) -> no_own_position d s.
Proof. intros D x H. destruct (opposite_parts _ _ _ _ H) as (A & B). exact (D x A B). Qed.
Lemma nodup_app {A} (a b : list A) : NoDup (a ++ b) -> NoDup a /\ NoDup b /\ (forall x, In x a -> ~ In x b).
Proof.
  induction a as [|x a IH]; cbn; intro H; [repeat split; [constructor|exact H|intros ? []]|].
  inversion H as [|? ? N T]; subst. destruct (IH T) as (A1 & B & C). split; [constructor; [intro I; apply N, in_or_app; now left|exact A1]|].
  split; [exact B|]. intros y [<-|I]; [intro J; apply N, in_or_app; now right|now apply C].
Qed.
Lemma rec_exact : forall d s m m', owned m -> NoDup (parts d) -> disjoint (parts d) (parts s) -> copy_rec m d s = Ok m' ->
  (forall x y, opposite_placed m d s x y -> place_of m' x = place_of m y) /\
  (forall x, (forall y, ~ opposite_placed m d s x y) -> place_of m' x = place_of m x).
Proof.
  assert (W : forall ds, (forall e, In (Some e) ds -> forall s m m', owned m -> NoDup (parts e) -> disjoint (parts e) (parts s) -> copy_rec m e s = Ok m' ->
      (forall x y, opposite_placed m e s x y -> place_of m' x = place_of m y) /\
      (forall x, (forall y, ~ opposite_placed m e s x y) -> place_of m' x = place_of m x)) ->
    forall ss m m', owned m -> NoDup (flat ds) -> disjoint (flat ds) (flat ss) -> walk m ds ss = Ok m' ->
      (forall k a b x y, nth_error ds k = Some (Some a) -> nth_error ss k = Some (Some b) -> opposite_placed m a b x y -> place_of m' x = place_of m y) /\
      (forall x, (forall k a b y, nth_error ds k = Some (Some a) -> nth_error ss k = Some (Some b) -> ~ opposite_placed m a b x y) -> place_of m' x = place_of m x) /\
      (forall x, ~ In x (flat ds) -> place_of m' x = place_of m x)).
  { induction ds as [|d ds IH]; intros HD ss m m' W N D E.
    { injection E as <-. split; [intros [|k] ? ? ? ? X; discriminate X|]. split; auto. }
    destruct ss as [|s ss].
    { injection E as <-. split; [intros [|k] ? ? ? ? _ X; discriminate X|]. split; auto. }
    cbn [walk] in E.
    destruct (match d, s with Some d0, Some s0 => copy_rec m d0 s0 | _, _ => Ok m end) as [m1| | | |] eqn:F; try discriminate. cbn [bind] in E.
    change (flat (d :: ds)) with (match d with Some e => parts e | None => [] end ++ flat ds) in *.
    change (flat (s :: ss)) with (match s with Some e => parts e | None => [] end ++ flat ss) in *.
    destruct (nodup_app _ _ N) as (N1 & N2 & N3).
    assert (X : owned m1 /\ (forall a b x y, d = Some a -> s = Some b -> opposite_placed m a b x y -> place_of m1 x = place_of m y) /\
      (forall x, (forall a b y, d = Some a -> s = Some b -> ~ opposite_placed m a b x y) -> place_of m1 x = place_of m x) /\
      (forall x, ~ In x (match d with Some e => parts e | None => [] end) -> place_of m1 x = place_of m x)).
    { destruct d as [d|]; [|injection F as <-; split; [exact W|]; split; [discriminate|]; split; auto].
      destruct s as [s|]; [|injection F as <-; split; [exact W|]; split; [discriminate|]; split; auto].
      assert (Dj : disjoint (parts d) (parts s)) by (intros x I J; apply (D x); apply in_or_app; now left).
      destruct (rec_good d s m W (disjoint_no_own _ _ Dj)) as (m2 & E2 & G & _). rewrite F in E2. injection E2 as <-.
      destruct (HD d (or_introl eq_refl) s m m1 W N1 Dj F) as (A & B).
      split; [apply G|]. split; [intros a b x y [= <-] [= <-]; apply A|]. split.
      - intros x H. apply B. intros y. now apply H.
      - intros x H. apply G. intro P. apply H. now apply part_parts. }
    destruct X as (W1 & A1 & B1 & C1).
    assert (D2 : disjoint (flat ds) (flat ss)) by (intros x I J; apply (D x); apply in_or_app; now right).
    destruct (IH (fun e I => HD e (or_intror I)) ss m1 m' W1 N2 D2 E) as (A2 & B2 & C2).
    assert (S1 : forall z, In z (flat ss) -> place_of m1 z = place_of m z).
    { intros z I. apply C1. intro J. apply (D z); apply in_or_app; [now left|now right]. }
    split; [|split].
    - intros [|k] a b x y Ha Hb H; cbn [nth_error] in Ha, Hb.
      + injection Ha as ->. injection Hb as ->. rewrite C2; [eapply A1; eauto|]. destruct (oppl_parts _ _ _ _ _ H) as (I & _). now apply N3.
      + rewrite (A2 k a b x y Ha Hb).
        * apply S1. destruct (oppl_parts _ _ _ _ _ H) as (_ & J). eapply in_flat; eauto.
        * eapply oppl_transport; [|exact H]. intros z I. apply S1. eapply in_flat; eauto.
    - intros x H. rewrite B2.
      + apply B1. intros a b y -> ->. apply (H 0%nat a b y); reflexivity.
      + intros k a b y Ha Hb P. apply (H (S k) a b y Ha Hb). eapply oppl_transport; [|exact P].
        intros z I. symmetry. apply S1. eapply in_flat; eauto.
    - intros x I. rewrite C2, C1; auto; intro J; apply I, in_or_app; auto. }
  intro d. induction d as [i|i ds IH] using obj_ind'; intros s m m' O N D E; rewrite copy_rec_eq in E.
  - destruct (m_loc m (id_of s)) eqn:Q.
    2: { injection E as <-. apply place_none in Q. split; [|auto]. intros x y H. inversion H; subst. congruence. }
    cbn [id_of] in E. destruct (copy_ok m i (id_of s) O) as (m1 & C & O1 & S1 & P1).
    { intros ->. apply (D (id_of s)); [now left|destruct s; now left]. }
    rewrite C in E. cbn [bind] in E. injection E as <-.
    assert (PL : place_of m (id_of s) <> None) by (intro H; apply place_none in H; congruence). split.
    + intros x y H. inversion H; subst. cbn [id_of]. rewrite P1. destruct (place_of m (id_of s)); congruence.
    + intros x H. apply S1. intros ->. apply (H (id_of s)). now apply (oppl_self m (Leaf i) s).
  - destruct (m_loc m (id_of s)) eqn:Q.
    2: { injection E as <-. apply place_none in Q. split; [|auto]. intros x y H. inversion H; subst; cbn [id_of] in *; congruence. }
    cbn [id_of] in E. destruct (copy_ok m i (id_of s) O) as (m1 & C & O1 & S1 & P1).
    { intros ->. apply (D (id_of s)); [now left|destruct s; now left]. }
    rewrite C in E. cbn [bind] in E.
    assert (PL : place_of m (id_of s) <> None) by (intro H; apply place_none in H; congruence).
    assert (PI : place_of m1 i = place_of m (id_of s)) by (rewrite P1; destruct (place_of m (id_of s)); congruence).
    destruct s as [j|j ss].
    { injection E as <-. split.
      - intros x y H. inversion H; subst. exact PI.
      - intros x H. apply S1. intros ->. apply (H j). now apply (oppl_self m (Pair i ds) (Leaf j)). }
    cbn [id_of] in *. cbn [parts] in N. apply NoDup_cons_iff in N. destruct N as (NI & N).
    assert (D2 : disjoint (flat ds) (flat ss)) by (intros x I J; apply (D x); right; assumption).
    destruct (W ds IH ss m1 m' O1 N D2 E) as (A2 & B2 & C2).
    assert (S2 : forall z, In z (parts (Pair j ss)) -> place_of m1 z = place_of m z).
    { intros z I. apply S1. intros ->. apply (D i); [now left|exact I]. }
    split.
    + intros x y H. inversion H as [a b L|i' j' k el el' a b x' y' L Ha Hb R]; subst.
      * cbn [id_of] in *. rewrite C2; [exact PI|exact NI].
      * rewrite (A2 k a b x y Ha Hb).
        -- apply S2. right. destruct (oppl_parts _ _ _ _ _ R) as (_ & J). eapply in_flat; eauto.
        -- eapply oppl_transport; [|exact R]. intros z I. apply S2. right. eapply in_flat; eauto.
    + intros x H. rewrite B2.
      * apply S1. intros ->. apply (H j). now apply (oppl_self m (Pair i ds) (Pair j ss)).
      * intros k a b y Ha Hb P. apply (H y). econstructor; eauto. eapply oppl_transport; [|exact P].
        intros z I. symmetry. apply S2. right. eapply in_flat; eauto.
Qed.

(** ** an operand at its own position *)
Lemma self_copy m o l p : owned m -> m_loc m o = Some l -> l_file l = Some p -> copy_location m (Some o) (Some o) = UB.
Proof.
  intros (A & _) E F. unfold copy_location. rewrite E. cbn iota. rewrite E, F. destruct (A o l p E F) as (s & Hs). cbn [free_str]. rewrite Hs. cbn [bind m_loc].
  rewrite E, F. unfold read_str. cbn [m_bufs]. rewrite nth_set_same by (eapply nth_some_lt; eauto). reflexivity.
Qed.
Definition fine (m m' : mem) : Prop := owned m' /\ named m' /\ kept m m'.
Lemma named_from S m m' : from S m m' -> named m -> named m'.
Proof. intros F N o. destruct (F o) as [->|(y & _ & ->)]; apply N. Qed.
Lemma fine_refl m : owned m -> named m -> fine m m. Proof. intros A B. split; [exact A|]. split; [exact B|]. intros x H; exact H. Qed.
Lemma fine_trans a b c : fine a b -> fine b c -> fine a c.
Proof. intros (_ & _ & K) (O & N & K'). split; [exact O|]. split; [exact N|]. intros x H. auto. Qed.
Lemma self_copy_named m o : owned m -> named m -> place_of m o <> None -> copy_location m (Some o) (Some o) = UB.
Proof.
  intros O N H. specialize (N o). unfold place_of in *. destruct (m_loc m o) as [l|] eqn:E; [|congruence]. destruct (l_file l) as [p|] eqn:F; [|destruct N].
  eapply self_copy; eauto.
Qed.
Lemma copy_cases m d s : owned m -> named m -> copy_location m (Some d) (Some s) = UB \/ exists m', copy_location m (Some d) (Some s) = Ok m' /\ fine m m'.
Proof.
  intros O N. destruct (Nat.eq_dec d s) as [->|NE].
  - destruct (place_of m s) eqn:E; [left; apply self_copy_named; auto; congruence|]. right. exists m. apply place_none in E. unfold copy_location. rewrite E. split; [reflexivity|now apply fine_refl].
  - right. destruct (copy_good m d s O NE) as (m' & E & (G1 & G2 & G3 & G4) & _). exists m'. split; [exact E|]. split; [exact G1|]. split; [|exact G4]. eapply named_from; eauto.
Qed.
Lemma rec_cases : forall d s m, owned m -> named m -> copy_rec m d s = UB \/ exists m', copy_rec m d s = Ok m' /\ fine m m'.
Proof.
  intro d. induction d as [i|i ds IH] using obj_ind'; intros s m O N; rewrite copy_rec_eq.
  - destruct (m_loc m (id_of s)); [|right; exists m; split; [reflexivity|now apply fine_refl]].
    destruct (copy_cases m (id_of (Leaf i)) (id_of s) O N) as [->|(m1 & -> & F)]; [now left|]. right. exists m1. split; [reflexivity|exact F].
  - destruct (m_loc m (id_of s)); [|right; exists m; split; [reflexivity|now apply fine_refl]].
    destruct (copy_cases m (id_of (Pair i ds)) (id_of s) O N) as [->|(m1 & -> & F)]; [now left|]. cbn [bind].
    destruct s as [j|j ss]; [right; exists m1; split; [reflexivity|exact F]|].
    assert (X : forall ds, (forall e, In (Some e) ds -> forall s m, owned m -> named m -> copy_rec m e s = UB \/ exists m', copy_rec m e s = Ok m' /\ fine m m') ->
      forall ss m, owned m -> named m -> walk m ds ss = UB \/ exists m', walk m ds ss = Ok m' /\ fine m m').
    { clear. induction ds as [|d ds IHl]; intros HD ss m O N; [right; exists m; split; [reflexivity|now apply fine_refl]|].
      destruct ss as [|s ss]; [right; exists m; split; [reflexivity|now apply fine_refl]|]. cbn [walk].
      assert (Y : match d, s with Some d0, Some s0 => copy_rec m d0 s0 | _, _ => Ok m end = UB \/ exists m1, match d, s with Some d0, Some s0 => copy_rec m d0 s0 | _, _ => Ok m end = Ok m1 /\ fine m m1).
      { destruct d as [d|], s as [s|]; try (right; exists m; split; [reflexivity|now apply fine_refl]). apply HD; auto. now left. }
      destruct Y as [->|(m1 & -> & F)]; [now left|]. cbn [bind].
      destruct (IHl (fun e I => HD e (or_intror I)) ss m1) as [->|(m2 & -> & G)]; try apply F; [now left|]. right. exists m2. split; [reflexivity|eapply fine_trans; eauto]. }
    destruct (X ds IH ss m1) as [->|(m2 & -> & G)]; try apply F; [now left|]. right. exists m2. split; [reflexivity|eapply fine_trans; eauto].
Qed.
Lemma oppl_kept m m' a b x y : kept m m' -> opposite_placed m a b x y -> opposite_placed m' a b x y.
Proof. intros K H. induction H; econstructor; eauto. Qed.
Lemma own_position d s x : forall m, owned m -> named m -> opposite_placed m d s x x -> copy_rec m d s = UB.
Proof.
  intros m O N H. assert (X : forall y, opposite_placed m d s x y -> x = y -> forall m', fine m m' -> copy_rec m' d s = UB); [|apply (X x H eq_refl m); now apply fine_refl].
  clear H. intros y H. induction H as [a b L|i j k l l' a b x y L Ha Hb H IH]; intros EQ m' F.
  - rewrite copy_rec_eq. assert (P : place_of m' (id_of b) <> None) by (apply F; exact L).
    destruct (m_loc m' (id_of b)) eqn:Q; [|exfalso; apply P; now apply place_none]. rewrite EQ.
    rewrite self_copy_named; [reflexivity|apply F|apply F|exact P].
  - rewrite copy_rec_eq. cbn [id_of]. assert (P : place_of m' j <> None) by (apply F; exact L).
    destruct (m_loc m' j) eqn:Q; [|exfalso; apply P; now apply place_none].
    destruct (copy_cases m' i j) as [->|(m1 & -> & F1)]; [apply F|apply F|reflexivity|]. cbn [bind].
    assert (FF : fine m m1) by (eapply fine_trans; eauto). clear Q P F F1 L. revert k Ha Hb m1 FF. revert l'. induction l as [|e l IHl]; intros l' k Ha Hb m1 F; [destruct k; discriminate|].
    destruct l' as [|e' l']; [destruct k; discriminate|]. cbn [walk]. destruct k as [|k]; cbn [nth_error] in Ha, Hb.
    + injection Ha as ->. injection Hb as ->. rewrite (IH EQ m1 F). reflexivity.
    + assert (Y : match e, e' with Some d0, Some s0 => copy_rec m1 d0 s0 | _, _ => Ok m1 end = UB \/ exists m2, match e, e' with Some d0, Some s0 => copy_rec m1 d0 s0 | _, _ => Ok m1 end = Ok m2 /\ fine m1 m2).
      { destruct e as [d0|], e' as [s0|]; try (right; exists m1; split; [reflexivity|apply fine_refl; apply F]). apply rec_cases; apply F. }
      destruct Y as [->|(m2 & -> & F2)]; [reflexivity|]. cbn [bind]. apply (IHl l' k Ha Hb m2). eapply fine_trans; eauto.
Qed.
