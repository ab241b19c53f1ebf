(** Binders of modules, module-use! and module-map: C207, C208. *)
From Coq Require Import List ZArith Bool Lia String.
From Verif Require Import Base NumModel ParseModel EnvModel EnvSpec EnvProofs ModsysModel ModsysSpec ModsysProofs ModsysProperties2 ModsysProperties3
  HeapModel ListSpec ListProofs ListWitness EqModel HashModel HashSpec HashProofs HashProperties BinderModel BinderSpec.
Import ListNotations.
Local Open Scope list_scope.

(** * Lemmas *)
Lemma binder_found l m b : (exists l1 l2, l = l1 ++ (m, b) :: l2 /\ ~ In m (map fst l1)) -> binder_of l m = Some b.
Proof.
  intros (l1 & l2 & -> & N). induction l1 as [|[k c] l1 IH]; cbn [app binder_of].
  - now rewrite Nat.eqb_refl.
  - destruct (Nat.eqb_spec k m) as [->|]; [exfalso; apply N; now left|]. apply IH. intro H. apply N. now right.
Qed.
(** while a binder runs, nothing calls another *)
Definition inside (s s' : bst) : Prop := b_guard s' = true /\ b_calls s' = b_calls s /\ b_binders s' = b_binders s.
Lemma run_body_inside look p s : (forall m x s s', b_guard s = true -> ended (look m x s) s' -> inside s s') -> b_guard s = true ->
  forall s', ended (run_body look p s) s' -> inside s s'.
Proof.
  intros HL. revert s. induction p as [a| |m x k IH|m x v k IH|m u k IH]; intros s G s' E; cbn [run_body] in E.
  - destruct E as [(b & E)|E]; [|discriminate E]. inversion E; subst. repeat split; auto.
  - destruct E as [(b & E)|E]; [discriminate E|]. inversion E; subst. repeat split; auto.
  - destruct (look m x s) as [r s1|s1|] eqn:L.
    + destruct (HL m x s s1 G) as (G1 & C1 & B1); [left; eauto|]. destruct (IH r s1 G1 s' E) as (G2 & C2 & B2). split; [exact G2|split; congruence].
    + destruct E as [(b & E)|E]; [discriminate E|]. inversion E; subst. apply (HL m x s s' G). now right.
    + destruct E as [(b & E)|E]; discriminate E.
  - exact (IH (b_define m x v s) G s' E).
  - exact (IH (b_use m u s) G s' E).
Qed.
Lemma then_autoload_inv (P : bst -> bst -> Prop) fs fuel look m x s s' :
  (forall w, P s (with_world s w)) ->
  (forall w s', ended (look m x (with_world s w)) s' -> P s s') ->
  P s s -> ended (then_autoload fs fuel look m x s) s' -> P s s'.
Proof.
  intros HW HL HR E. unfold then_autoload in E. destruct (take_auto m x (w_auto (b_world s))) as [[n rest]|].
  - destruct (resolve _ _ _ _) as [u w|w|].
    + exact (HL _ _ E).
    + destruct E as [(b & E)|E]; [discriminate E|]. inversion E; subst. apply HW.
    + destruct E as [(b & E)|E]; discriminate E.
  - destruct E as [(b & E)|E]; [|discriminate E]. inversion E; subst. exact HR.
Qed.
Lemma search_inside fs fuel : forall m x s s', b_guard s = true -> ended (b_search fs fuel m x s) s' -> inside s s'.
Proof.
  induction fuel as [|fuel IH]; intros m x s s' G E; cbn [b_search] in E; [destruct E as [(b & E)|E]; discriminate E|].
  assert (R : inside s s) by (repeat split; auto).
  destruct (mod_search (w_st (b_world s)) m x) as [v|].
  { destruct E as [(b & E)|E]; [|discriminate E]. inversion E; subst. exact R. }
  assert (K : ended (then_autoload fs fuel (b_search fs fuel) m x s) s' -> inside s s').
  { intro E2. apply (then_autoload_inv inside fs fuel (b_search fs fuel) m x s s'). - intro w. split; [exact G|split; reflexivity]. - intros w s2 E3. exact (IH m x (with_world s w) s2 G E3). - exact R. - exact E2. }
  destruct (binder_of (b_binders s) m) as [b|]; [rewrite G in E|]; exact (K E).
Qed.
(** the general law of one lookup *)
Definition law (m : nat) (x : list Z) (thrown : bool) (s s' : bst) : Prop :=
  b_binders s' = b_binders s /\ (thrown = false -> b_guard s' = b_guard s) /\
  exists l, b_calls s' = b_calls s ++ l /\ (forall c, In c l -> c = (m, x)) /\ (b_guard s = true -> l = []).
Lemma search_law fs fuel : forall m x s,
  match b_search fs fuel m x s with BDone _ s' => law m x false s s' | BThrew s' => law m x true s s' | BFuel => True end.
Proof.
  induction fuel as [|fuel IH]; intros m x s; cbn [b_search]; [exact Logic.I|].
  assert (R : forall t, law m x t s s) by (intro t; split; [reflexivity|split; [reflexivity|exists []; rewrite app_nil_r; repeat split; auto; intros c []]]).
  destruct (mod_search (w_st (b_world s)) m x) as [v|]; [apply R|].
  assert (K : forall s, match then_autoload fs fuel (b_search fs fuel) m x s with BDone _ s' => law m x false s s' | BThrew s' => law m x true s s' | BFuel => True end).
  { intro s0. unfold then_autoload. destruct (take_auto m x (w_auto (b_world s0))) as [[n rest]|].
    - destruct (resolve _ _ _ _) as [u w|w|]; [exact (IH m x (with_world s0 (add_use m u w)))| |exact Logic.I].
      split; [reflexivity|split; [reflexivity|exists []; rewrite app_nil_r; repeat split; auto; intros c []]].
    - split; [reflexivity|split; [reflexivity|exists []; rewrite app_nil_r; repeat split; auto; intros c []]]. }
  destruct (binder_of (b_binders s) m) as [b|]; [|apply K].
  destruct (b_guard s) eqn:G; [apply K|].
  pose proof (run_body_inside (b_search fs fuel) (b m x) (called (with_guard s true) m x) (search_inside fs fuel) eq_refl) as I.
  destruct (run_body _ _ _) as [a s1|s1|] eqn:E; [| |exact Logic.I].
  - destruct (I s1) as (G1 & C1 & B1); [left; eauto|]. cbn [called with_guard b_calls b_binders] in C1, B1.
    assert (D : law m x false s (with_guard s1 false)).
    { split; [exact B1|split; [cbn; congruence|]]. exists [(m, x)]. split; [exact C1|]. split; [intros c [<-|[]]; reflexivity|congruence]. }
    destruct a as [|v|v]; [|exact D|exact D].
    pose proof (K (with_guard s1 false)) as K1.
    assert (T : forall t s', law m x t (with_guard s1 false) s' -> law m x t s s').
    { intros t s' (B2 & G2 & l & C2 & F2 & _). split; [rewrite B2; exact B1|]. split; [intro H; rewrite (G2 H); cbn; congruence|].
      exists ((m, x) :: l). split; [rewrite C2; cbn [with_guard b_calls]; rewrite C1, <- app_assoc; reflexivity|].
      split; [intros c [<-|H]; [reflexivity|apply F2, H]|congruence]. }
    destruct (then_autoload _ _ _ _ _ _) as [r s2|s2|]; [apply T, K1|apply T, K1|exact Logic.I].
  - destruct (I s1) as (G1 & C1 & B1); [right; reflexivity|]. cbn [called with_guard b_calls b_binders] in C1, B1.
    split; [exact B1|split; [discriminate|]]. exists [(m, x)]. split; [exact C1|]. split; [intros c [<-|[]]; reflexivity|congruence].
Qed.

(** * C207 *)
(** set-module-binder! installs the binder in that module, in place of its older one; those of the other modules stay *)
Theorem c207_set_binder : forall m b s, has_binder (set_binder m b s) m b /\
  (forall m' b', m' <> m -> (has_binder (set_binder m b s) m' b' <-> has_binder s m' b')) /\
  b_world (set_binder m b s) = b_world s /\ b_calls (set_binder m b s) = b_calls s /\ (idle (set_binder m b s) <-> idle s).
Proof.
  intros m b s. split; [exists [], (b_binders s); split; [reflexivity|auto]|]. split; [|split; [reflexivity|split; [reflexivity|reflexivity]]].
  intros m' b' N. unfold has_binder, set_binder. cbn [b_binders]. split.
  - intros (l1 & l2 & E & F). destruct l1 as [|[m1 b1] l1]; cbn [app] in E; inversion E; subst; [congruence|]. exists l1, l2. split; [assumption|]. intro Q. apply F. now right.
  - intros (l1 & l2 & E & F). exists ((m, b) :: l1), l2. rewrite E. split; [reflexivity|]. intros [Q|Q]; [cbn in Q; congruence|auto].
Qed.
(** what code in the module sees without a binder is found without one *)
Theorem c207_bound_first : forall fs fuel m x v s, sees (b_world s) m x = Some v -> b_search fs (S fuel) m x s = BDone (Some v) s.
Proof. intros fs fuel m x v s H. cbn [b_search]. rewrite mod_search_sees, H. reflexivity. Qed.
Print Assumptions c207_bound_first.

(** an unbound name goes to the binder that was set last, which is called with the
    module and the name; a variable stands for its value, #f for no answer *)
Theorem c207_answer : forall fs fuel m x s b a, idle s -> sees (b_world s) m x = None -> has_binder s m b -> b m x = BAnswer a -> ~ autoloads (b_world s) m x ->
  exists s', b_search fs (S fuel) m x s = BDone (match a with AFalse => None | AVar v | AVal v => Some v end) s' /\
    b_world s' = b_world s /\ b_binders s' = b_binders s /\ b_calls s' = b_calls s ++ [(m, x)] /\ idle s'.
Proof.
  intros fs fuel m x s b a G H HB A NA. cbn [b_search]. rewrite mod_search_sees, H, (binder_found _ _ _ HB), G, A. cbn [run_body].
  eexists. split; [|]. { destruct a; [|reflexivity|reflexivity]. unfold then_autoload. cbn [with_guard called b_world]. rewrite (not_listed_take _ _ _ NA). reflexivity. }
  cbn. repeat split; reflexivity.
Qed.
Print Assumptions c207_answer.

(** a binder that defines the name is not asked again *)
Theorem c207_defined_once : forall fs fuel m x s b v, idle s -> (m < length (s_mods (w_st (b_world s))))%nat ->
  sees (b_world s) m x = None -> has_binder s m b -> b m x = BDefine m x v (BAnswer (AVar v)) ->
  exists s', b_search fs (S fuel) m x s = BDone (Some v) s' /\ b_calls s' = b_calls s ++ [(m, x)] /\ idle s' /\
    forall fuel', b_search fs (S fuel') m x s' = BDone (Some v) s'.
Proof.
  intros fs fuel m x s b v G L H HB A. cbn [b_search]. rewrite mod_search_sees, H, (binder_found _ _ _ HB), G, A. cbn [run_body].
  eexists. split; [reflexivity|]. split; [reflexivity|]. split; [reflexivity|]. intro fuel'. apply c207_bound_first.
  unfold sees. cbn [with_guard b_define with_world b_world called]. destruct (put_mod (w_st (b_world s)) m x v L) as (B & _).
  unfold module_places. cbn [first_bound with_st w_st]. rewrite B. reflexivity.
Qed.
Print Assumptions c207_defined_once.

(** any lookup, with any binders: it calls the binder of the module it searches with the
    name it searches, never another; a binder that is running is not called again and
    no other binder is; when the lookup returns, the interpreter is as ready as before *)
Theorem c207_calls : forall fs fuel m x s s', ended (b_search fs fuel m x s) s' ->
  exists l, b_calls s' = b_calls s ++ l /\ (forall c, In c l -> c = (m, x)) /\ (~ idle s -> l = []).
Proof.
  intros fs fuel m x s s' E. pose proof (search_law fs fuel m x s) as L. unfold idle.
  destruct E as [(r & E)|E]; rewrite E in L; destruct L as (_ & _ & l & C & F & Z); exists l; (split; [exact C|split; [exact F|]]);
    intro N; apply Z; destruct (b_guard s); congruence.
Qed.
Print Assumptions c207_calls.
Theorem c207_ready_again : forall fs fuel m x s r s', b_search fs fuel m x s = BDone r s' -> idle s -> idle s'.
Proof. intros fs fuel m x s r s' E G. pose proof (search_law fs fuel m x s) as L. rewrite E in L. destruct L as (_ & L & _). unfold idle. rewrite L; auto. Qed.
Print Assumptions c207_ready_again.

Lemma no_auto_search fs fuel m x s : w_auto (b_world s) = [] -> b_guard s = true -> exists r, b_search fs (S fuel) m x s = BDone r s.
Proof.
  intros A G. cbn [b_search]. destruct (mod_search _ _ _); [eauto|]. unfold then_autoload. rewrite A. cbn [take_auto].
  destruct (binder_of _ _); [rewrite G|]; eauto.
Qed.
Lemma no_auto_body fs fuel p : forall s, w_auto (b_world s) = [] -> b_guard s = true ->
  (exists a s', run_body (b_search fs (S fuel)) p s = BDone a s' /\ w_auto (b_world s') = []) \/ exists s', run_body (b_search fs (S fuel)) p s = BThrew s' /\ w_auto (b_world s') = [].
Proof.
  induction p as [a| |m x k IH|m x v k IH|m u k IH]; intros s A G.
  - left. exists a, s. auto.
  - right. exists s. auto.
  - destruct (no_auto_search fs fuel m x s A G) as (r & E). change (run_body (b_search fs (S fuel)) (BLookup m x k) s) with
      (match b_search fs (S fuel) m x s with BDone r s1 => run_body (b_search fs (S fuel)) (k r) s1 | BThrew s1 => BThrew s1 | BFuel => BFuel end).
    rewrite E. apply IH; auto.
  - apply (IH (b_define m x v s)); auto.
  - apply (IH (b_use m u s)); auto.
Qed.
(** without autoloads every lookup ends, whatever the binders look up, and calls at most one binder *)
Theorem c207_ends : forall fs fuel m x s, w_auto (b_world s) = [] ->
  exists s', ended (b_search fs (S (S fuel)) m x s) s' /\ (length (b_calls s') <= S (length (b_calls s)))%nat.
Proof.
  intros fs fuel m x s A. change (b_search fs (S (S fuel)) m x s) with
      (match mod_search (w_st (b_world s)) m x with
      | Some v => BDone (Some v) s
      | None =>
          match binder_of (b_binders s) m with
          | Some b =>
              if b_guard s then then_autoload fs (S fuel) (b_search fs (S fuel)) m x s
              else
                match run_body (b_search fs (S fuel)) (b m x) (called (with_guard s true) m x) with
                | BDone a s1 =>
                    match a with
                    | AFalse => then_autoload fs (S fuel) (b_search fs (S fuel)) m x (with_guard s1 false)
                    | AVar v => BDone (Some v) (with_guard s1 false)
                    | AVal v => BDone (Some v) (with_guard s1 false)
                    end
                | BThrew s1 => BThrew s1
                | BFuel => BFuel
                end
          | None => then_autoload fs (S fuel) (b_search fs (S fuel)) m x s
          end
      end).
  assert (T : forall s, w_auto (b_world s) = [] -> then_autoload fs (S fuel) (b_search fs (S fuel)) m x s = BDone None s) by (intros s0 A0; unfold then_autoload; rewrite A0; reflexivity).
  destruct (mod_search _ _ _) as [v|]; [exists s; split; [left; eauto|lia]|].
  destruct (binder_of _ _) as [b|]; [|rewrite T by auto; exists s; split; [left; eauto|lia]].
  destruct (b_guard s) eqn:G; [rewrite T by auto; exists s; split; [left; eauto|lia]|].
  pose proof (run_body_inside (b_search fs (S fuel)) (b m x) (called (with_guard s true) m x) (search_inside fs (S fuel)) eq_refl) as I.
  destruct (no_auto_body fs fuel (b m x) (called (with_guard s true) m x)) as [(a & s1 & E & A1)|(s1 & E & A1)]; auto; rewrite E in I |- *.
  - destruct (I s1) as (_ & C & _); [left; eauto|]. cbn [called b_calls with_guard] in C. exists (with_guard s1 false). split.
    + left. destruct a; [rewrite T by auto|..]; eauto.
    + cbn [with_guard b_calls]. rewrite C, app_length. cbn. lia.
  - destruct (I s1) as (_ & C & _); [right; reflexivity|]. cbn [called b_calls with_guard] in C. exists s1. split; [right; reflexivity|].
    rewrite C, app_length. cbn. lia.
Qed.
Print Assumptions c207_ends.

(** as long as no lookup ended with an error, every unbound name of a module with a
    binder gets there *)
Theorem c207_always_consulted : forall fs s l s1 m x b fuel s2, idle s -> quiet fs s l s1 ->
  sees (b_world s1) m x = None -> has_binder s1 m b -> ended (b_search fs fuel m x s1) s2 -> exists r, b_calls s2 = b_calls s1 ++ (m, x) :: r.
Proof.
  intros fs s l s1 m x b fuel s2 G Q H HB E.
  assert (G1 : idle s1).
  { clear -G Q. induction Q as [|s0 l s1 fuel m x r s2 Q IH E|s0 l s1 fuel o s2 Q IH N E]; [exact G| |].
    - exact (c207_ready_again _ _ _ _ _ _ _ E (IH G)).
    - specialize (IH G). destruct o as [m x|m x v|m b|m u|m n]; cbn [b_step] in E; [exfalso; eapply N; reflexivity|inversion E; subst; exact IH..|].
      unfold module_use_name in E. destruct (resolve _ _ _ _) as [u w|w|]; inversion E; subst; exact IH. }
  destruct fuel as [|fuel]; [destruct E as [(r & E)|E]; discriminate E|]. cbn [b_search] in E. rewrite mod_search_sees, H, (binder_found _ _ _ HB), G1 in E.
  pose proof (run_body_inside (b_search fs fuel) (b m x) (called (with_guard s1 true) m x) (search_inside fs fuel) eq_refl) as I.
  destruct (run_body _ _ _) as [a s3|s3|] eqn:R.
  - destruct (I s3) as (_ & C & _); [left; eauto|]. cbn [called b_calls with_guard] in C. destruct a as [|v|v].
    + unfold then_autoload in E. destruct (take_auto _ _ _) as [[n rest]|].
      * destruct (resolve _ _ _ _) as [u w|w|].
        -- destruct (c207_calls _ _ _ _ _ _ E) as (k & C2 & _). exists k. rewrite C2. cbn [with_world with_guard b_calls]. rewrite C, <- app_assoc. reflexivity.
        -- destruct E as [(r & E)|E]; inversion E; subst. exists []. exact C.
        -- destruct E as [(r & E)|E]; discriminate E.
      * destruct E as [(r & E)|E]; inversion E; subst. exists []. exact C.
    + destruct E as [(r & E)|E]; inversion E; subst. exists []. exact C.
    + destruct E as [(r & E)|E]; inversion E; subst. exists []. exact C.
  - destruct (I s3) as (_ & C & _); [right; reflexivity|]. destruct E as [(r & E)|E]; inversion E; subst. exists []. exact C.
  - destruct E as [(r & E)|E]; discriminate E.
Qed.
Print Assumptions c207_always_consulted.

(** module-use!: afterwards the module sees its own names, then those of the used
    module's interface, then what it saw before; other modules see the same *)
Theorem c207_use : forall fs fuel m n u s, (m < length (s_mods (w_st (b_world s))))%nat -> reg_find n (w_reg (b_world s)) = Some u ->
  exists s', module_use_name fs (S fuel) m n s = BDone tt s' /\ module_use_obj m u s = BDone tt s' /\
    b_binders s' = b_binders s /\ b_calls s' = b_calls s /\ (idle s -> idle s') /\
    (forall x, sees (b_world s') m x = match binds (b_world s) m x with Some v => Some v | None =>
                 match binds (b_world s) (shown (b_world s) u) x with Some v => Some v | None => sees (b_world s) m x end end) /\
    (forall k x, k <> m -> sees (b_world s') k x = sees (b_world s) k x).
Proof.
  intros fs fuel m n u s L R. exists (b_use m u s). split.
  { unfold module_use_name, resolve. cbn [sys o_resolve]. unfold resolve_body. rewrite R. destruct s; reflexivity. }
  split; [reflexivity|]. split; [reflexivity|]. split; [reflexivity|]. split; [auto|]. split.
  - intro x. exact (sees_use (b_world s) m u x L).
  - intros k x N. exact (sees_use_other (b_world s) m u k x L N).
Qed.
Print Assumptions c207_use.

(** module-map calls the procedure once for each binding of the module, with its name and
    its value, and the results are in the order of the calls.  The procedure may allocate *)
Lemma map_bucket_ok call : (forall k v h, wf h -> exists x h', call k v h = Ok (x, h') /\ wf h' /\ extends h h') ->
  forall es h, wf h -> (forall e, In e es -> entry_in Feq h e) ->
  exists rs h', map_bucket call (map e_cell es) h = Ok (rs, h') /\ extends h h' /\ in_order call (map (fun e => (e_key e, e_val e)) es) h rs h'.
Proof.
  intros C. induction es as [|e es IH]; intros h W He.
  - exists [], h. split; [reflexivity|]. split; [repeat split; auto|constructor].
  - cbn [map map_bucket]. destruct (He e (or_introl eq_refl)) as (E1 & E2 & _).
    rewrite (bind_ok _ _ _ _ _ (getc_ok _ _ _ E1)). cbn [c_next c_data]. rewrite (bind_ok _ _ _ _ _ (getc_ok _ _ _ E2)). cbn [c_data].
    destruct (C (e_key e) (e_val e) h W) as (x & h1 & X & W1 & EX). rewrite (bind_ok _ _ _ _ _ X).
    destruct (IH h1 W1) as (rs & h2 & Y & EY & O).
    { intros e' I. destruct (He e' (or_intror I)) as (A1 & A2 & (o & A3 & A4)). destruct EX as (X1 & X2 & _). split; [auto|]. split; [auto|]. exists o. auto. }
    rewrite (bind_ok _ _ _ _ _ Y). exists (x :: rs), h2. split; [reflexivity|]. split.
    + destruct EX as (X1 & X2 & X3), EY as (Y1 & Y2 & Y3). repeat split; auto. lia.
    + econstructor; eauto.
Qed.
Theorem c207_map : forall call pa h t m, (forall k v h, wf h -> exists x h', call k v h = Ok (x, h') /\ wf h' /\ extends h h') -> wf h -> table Feq pa h t m ->
  exists kvs cks rs h', module_map call t h = Ok (rs, h') /\ in_order call kvs h rs h' /\ table Feq pa h' t m /\
    Forall2 (fun kv c => key_in Feq h (fst kv) c /\ m c = Some (snd kv)) kvs cks /\ NoDup cks /\ (forall c, In c cks <-> m c <> None).
Proof.
  intros call pa h t m C W T. destruct (fold_visits_ok _ _ _ _ _ T) as (kvs & cks & F & F2 & N & I).
  pose proof T as T0. apply table_tinv in T0. destruct T0 as (ess & sz & (O & Sz & N0 & Hb & He & Nk & Nc) & R).
  destruct (map_bucket_ok call C (concat ess) h W He) as (rs & h' & M & E & IO).
  exists kvs, cks, rs, h'. unfold module_map. rewrite (bind_ok _ _ _ _ _ (get_ok _ _ _ O)). rewrite concat_map_map. split; [exact M|].
  unfold hash_fold_visits in F. rewrite (bind_ok _ _ _ _ _ (get_ok _ _ _ O)) in F. rewrite concat_map_map in F.
  rewrite (fold_entries_ok Feq h (concat ess) He) in F. inversion F; subst.
  split; [exact IO|]. split; [exact (c23_stable_under_allocation _ _ _ _ _ _ E T)|]. auto.
Qed.
Print Assumptions c207_map.
Theorem c207_map_module_only : forall call h t o, h_obj h t = Some o -> (forall b s, o <> OHash b s) -> module_map call t h = Err.
Proof. intros call h t o O N. unfold module_map. rewrite (bind_ok _ _ _ _ _ (get_ok _ _ _ O)). destruct o; try reflexivity. exfalso. eapply N. reflexivity. Qed.
Print Assumptions c207_map_module_only.

(** Instances: module 1 has a binder that answers from a table and module 2 one that
    defines what it is asked for *)
Definition x1 : list Z := bs "answer".
Definition x2 : list Z := bs "question".
Definition bw0 : bst := mkB (mkWorld (mkState [[]] [mkMod [] [] [] None; mkMod [(x2, VInt 7)] [] [] None; mkMod [] [] [] None] 1 [] (s_dyn (w_st (init_world [])))) [] [] []) [] false [].
Definition bw1 : bst :=
  set_binder 2 (fun m x => BDefine m x (VInt 5) (BAnswer (AVar (VInt 5))))
  (set_binder 1 (fun m x => if beq x x1 then BAnswer (AVar (VInt 42)) else BAnswer AFalse) bw0).
Example c207_instance : idle bw1 /\ sees (b_world bw1) 1 x1 = None /\
  has_binder bw1 1 (fun m x => if beq x x1 then BAnswer (AVar (VInt 42)) else BAnswer AFalse) /\
  (exists s, b_search [] 3 1 x1 bw1 = BDone (Some (VInt 42)) s /\ b_calls s = [(1%nat, x1)]) /\
  (exists s, b_search [] 3 1 (bs "other") bw1 = BDone None s /\ b_calls s = [(1%nat, bs "other")]) /\
  (exists s, b_search [] 3 1 x2 bw1 = BDone (Some (VInt 7)) s /\ b_calls s = []) /\
  (exists s s', b_search [] 3 2 x1 bw1 = BDone (Some (VInt 5)) s /\ b_search [] 3 2 x1 s = BDone (Some (VInt 5)) s' /\ b_calls s' = [(2%nat, x1)]).
Proof.
  split; [reflexivity|]. split; [reflexivity|]. split.
  { eexists [_], []. split; [reflexivity|]. cbn. intros [H|[]]. discriminate H. }
  split; [eexists; split; reflexivity|]. split; [eexists; split; reflexivity|]. split; [eexists; split; reflexivity|].
  eexists. eexists. split; [reflexivity|]. split; reflexivity.
Qed.

(** * C208 *)
(** after an error in a binder no binder is called any more, whatever the program does *)
Theorem c208_error_refuted : forall fs fuel m x s b, idle s -> sees (b_world s) m x = None -> has_binder s m b -> b m x = BError ->
  exists s1, b_search fs (S fuel) m x s = BThrew s1 /\ b_world s1 = b_world s /\
    forall l s2, calls fs s1 l s2 -> b_calls s2 = b_calls s1 /\
    forall m' x' fuel', sees (b_world s2) m' x' = None -> ~ autoloads (b_world s2) m' x' -> b_search fs (S fuel') m' x' s2 = BDone None s2.
Proof.
  intros fs fuel m x s b G H HB A. cbn [b_search]. rewrite mod_search_sees, H, (binder_found _ _ _ HB), G, A. cbn [run_body].
  exists (called (with_guard s true) m x). split; [reflexivity|]. split; [reflexivity|]. intros l s2 C.
  assert (K : b_guard s2 = true /\ b_calls s2 = b_calls (called (with_guard s true) m x)).
  { remember (called (with_guard s true) m x) as s1 eqn:Q. assert (G1 : b_guard s1 = true) by (subst; reflexivity). clear -C G1.
    induction C as [|s0 l s1 fuel o s2 C IH E]; [auto|]. destruct (IH G1) as (G2 & C2). destruct o as [m x|m x v|m b|m u|m n]; cbn [b_step] in E.
    - destruct (b_search fs fuel m x s1) as [r s3|s3|] eqn:F; inversion E; subst;
        (destruct (search_inside fs fuel m x s1 s2 G2) as (A1 & A2 & _); [rewrite F; first [left; eauto; fail|right; reflexivity]|split; [exact A1|congruence]]).
    - inversion E; subst. auto.
    - inversion E; subst. auto.
    - inversion E; subst. auto.
    - unfold module_use_name in E. destruct (resolve _ _ _ _) as [u w|w|]; inversion E; subst; auto. }
  destruct K as (G2 & C2). split; [exact C2|]. intros m' x' fuel' N NA. cbn [b_search]. rewrite mod_search_sees, N.
  unfold then_autoload. rewrite (not_listed_take _ _ _ NA). destruct (binder_of _ _); [rewrite G2|]; reflexivity.
Qed.
Print Assumptions c208_error_refuted.
(** a name that the binder of one module looks up in another is not passed to the other's binder *)
Theorem c208_nested_refuted : exists s m1 m2 x v, idle s /\
  (exists s', b_search [] 3 m2 x s = BDone (Some v) s') /\
  has_binder s m1 (fun _ x => BLookup m2 x (fun r => BAnswer (match r with Some v => AVal v | None => AFalse end))) /\
  exists s', b_search [] 3 m1 x s = BDone None s'.
Proof.
  exists (set_binder 1 (fun _ x => BLookup 2 x (fun r => BAnswer (match r with Some v => AVal v | None => AFalse end))) bw1), 1%nat, 2%nat, x1, (VInt 5).
  split; [reflexivity|]. split; [eexists; reflexivity|]. split; [eexists [], _; split; [reflexivity|intros []]|]. eexists. reflexivity.
Qed.
Print Assumptions c208_nested_refuted.
Example c208_instance : exists s1, b_search [] 3 1 x1 (set_binder 1 (fun _ _ => BError) bw1) = BThrew s1 /\
  exists s2, b_search [] 3 2 x1 s1 = BDone None s2 /\ exists s3, b_search [] 3 2 x1 bw1 = BDone (Some (VInt 5)) s3.
Proof. eexists. split; [reflexivity|]. eexists. split; [reflexivity|]. eexists. reflexivity. Qed.
(** module-map on a table with two entries, the procedure making a pair of its arguments *)
Example c207_map_instance :
  match make_hash_table None ex_heap with
  | Ok (t, h) => match hash_set Feq 9 Z.of_nat t 4%nat 5%nat h with
                 | Ok (_, h1) => match hash_set Feq 9 Z.of_nat t 6%nat 7%nat h1 with
                                 | Ok (_, h2) => match module_map (fun k v => alloc_cell (mkCell k (Some v) true)) t h2 with
                                                 | Ok (l, h3) => map (h_cell h3) l = [Some (mkCell 4%nat (Some 5%nat) true); Some (mkCell 6%nat (Some 7%nat) true)]
                                                 | _ => False end
                                 | _ => False end
                 | _ => False end
  | _ => False end.
Proof. vm_compute. reflexivity. Qed.
Example c207_map_hypothesis : forall k v h, wf h -> exists x h', alloc_cell (mkCell k (Some v) true) h = Ok (x, h') /\ wf h' /\ extends h h'.
Proof. intros k v h W. eexists. eexists. split; [reflexivity|]. split; [exact (wf_hallocc _ (mkCell k (Some v) true) W)|exact (extends_hallocc _ (mkCell k (Some v) true) W)]. Qed.
