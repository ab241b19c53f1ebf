(** The module system: an invariant of all sessions, and what every operation
    leaves in place. *)
From Coq Require Import String Lia.
From Verif Require Import Base ParseModel ParseProofs EnvModel EnvSpec EnvProofs ModsysModel ModsysSpec.
Local Open Scope string_scope.
Local Open Scope list_scope.
Notation "[ ]" := (@nil _) : list_scope.

(** * Names *)
Lemma atom_eqb_eq a b : atom_eqb a b = true <-> a = b.
Proof.
  destruct a, b; cbn; split; intros H; try discriminate.
  - destruct (beq_spec s s0); [now subst|discriminate].
  - injection H as ->. apply beq_refl.
  - apply Z.eqb_eq in H. now subst.
  - injection H as ->. apply Z.eqb_refl.
  - destruct (beq_spec s s0); [now subst|discriminate].
  - injection H as ->. apply beq_refl.
Qed.
Lemma mname_eqb_eq a : forall b, mname_eqb a b = true <-> a = b.
Proof.
  induction a as [|x a IH]; intros [|y b]; cbn; split; intros H; try discriminate; auto.
  - apply andb_prop in H as [H1 H2]. apply atom_eqb_eq in H1. apply IH in H2. now subst.
  - injection H as -> ->. apply andb_true_intro. split; [now apply atom_eqb_eq|now apply IH].
Qed.
Lemma reg_find_in n l m : reg_find n l = Some m -> In (n, m) l.
Proof.
  induction l as [|[k j] l IH]; cbn; [discriminate|]. destruct (mname_eqb k n) eqn:E; intros H.
  - apply mname_eqb_eq in E. injection H as ->. subst. auto.
  - auto.
Qed.
Lemma reg_find_none n l : reg_find n l = None <-> ~ In n (map fst l).
Proof.
  induction l as [|[k j] l IH]; cbn; [tauto|]. destruct (mname_eqb k n) eqn:E.
  - apply mname_eqb_eq in E. subst. split; [discriminate|]. intros H. exfalso. auto.
  - rewrite IH. split; [|tauto]. intros H [Q|Q]; [|auto]. apply mname_eqb_eq in Q. congruence.
Qed.
Lemma in_reg_find n l m : NoDup (map fst l) -> In (n, m) l -> reg_find n l = Some m.
Proof.
  intros N. induction l as [|[k j] l IH]; cbn; [intros []|]. intros [[= -> ->]|H].
  - now rewrite (proj2 (mname_eqb_eq n n) eq_refl).
  - inversion N as [|? ? N1 N2]; subst. destruct (mname_eqb k n) eqn:E; [|auto].
    apply mname_eqb_eq in E. subst. exfalso. apply N1. apply in_map_iff. exists (n, m). auto.
Qed.

(** * The invariant *)
Notation nomod := (mkMod [] [] [] None).
Definition ids (w : world) : list nat := map snd (w_reg w).
Definition md (w : world) (m : nat) : modl := mod_at (w_st w) m.
Definition dom (w : world) (m : nat) : list (list Z) := map fst (m_ob (md w m)).
Definition iface_of (w : world) (m p : nat) : Prop :=
  (p < length (s_mods (w_st w)))%nat /\ ~ In p (ids w) /\ m_pub (md w p) = Some m /\
  (forall x, In x (dom w p) -> In x (m_exports (md w m))).
Record wf (w : world) : Prop := {
  wf_names : NoDup (map fst (w_reg w));
  wf_ids : NoDup (ids w);
  wf_lt : forall m, In m (ids w) -> (m < length (s_mods (w_st w)))%nat;
  wf_pub : forall m p, In m (ids w) -> m_pub (md w m) = Some p -> iface_of w m p;
  wf_cur : In (s_cur (w_st w)) (ids w);
  wf_root : In root (ids w);
  wf_auto : forall m s, In (m, s) (w_auto w) -> In m (ids w);
  wf_uses : forall m u, In m (ids w) -> In u (m_uses (md w m)) ->
            In u (ids w) \/ exists k, In k (ids w) /\ m_pub (md w k) = Some u;
  wf_loads : NoDup (loads (w_log w));
  wf_loaded : forall n, In n (loads (w_log w)) -> In n (map fst (w_reg w)) }.
(** * What never changes back *)
Record ext (w w' : world) : Prop := {
  ext_reg : exists l, w_reg w' = l ++ w_reg w;
  ext_log : exists l, w_log w' = w_log w ++ l;
  ext_mods : (length (s_mods (w_st w)) <= length (s_mods (w_st w')))%nat;
  ext_exports : forall m, In m (ids w) -> forall x, In x (m_exports (md w m)) -> In x (m_exports (md w' m));
  ext_pub : forall m p, In m (ids w) -> m_pub (md w m) = Some p -> m_pub (md w' m) = Some p;
  ext_uses : forall m, In m (ids w) -> exists l, m_uses (md w' m) = l ++ m_uses (md w m);
  ext_dom : forall m x, (m < length (s_mods (w_st w)))%nat -> In x (dom w m) -> In x (dom w' m) }.
Lemma ext_ids w w' m : ext w w' -> In m (ids w) -> In m (ids w').
Proof. intros [[l E] _ _ _ _ _] I. unfold ids in *. rewrite E, map_app. apply in_or_app. auto. Qed.
Lemma ext_refl w : ext w w.
Proof.
  constructor; auto; try (exists []; reflexivity).
  exists []. now rewrite app_nil_r.
Qed.
Lemma ext_trans w1 w2 w3 : wf w1 -> ext w1 w2 -> ext w2 w3 -> ext w1 w3.
Proof.
  intros W A B. assert (I := fun m => ext_ids w1 w2 m A).
  destruct A as [[l1 A1] [k1 A2] A3 A4 A5 A6 A7], B as [[l2 B1] [k2 B2] B3 B4 B5 B6 B7]. constructor.
  - exists (l2 ++ l1). rewrite B1, A1. apply app_assoc.
  - exists (k1 ++ k2). rewrite B2, A2. symmetry. apply app_assoc.
  - lia.
  - auto.
  - auto.
  - intros m H. destruct (A6 m H) as [a Ea], (B6 m (I _ H)) as [b Eb]. exists (b ++ a). rewrite Eb, Ea. apply app_assoc.
  - intros m x L H. apply B7; [lia|]. auto.
Qed.

(** * Changes of bindings only *)
Record ob_step (w : world) (st' : state) : Prop := {
  os_len : length (s_mods st') = length (s_mods (w_st w));
  os_cur : s_cur st' = s_cur (w_st w);
  os_uses : forall m, m_uses (mod_at st' m) = m_uses (md w m);
  os_exports : forall m, m_exports (mod_at st' m) = m_exports (md w m);
  os_pub : forall m, m_pub (mod_at st' m) = m_pub (md w m);
  os_dom : forall m x, In x (dom w m) -> In x (map fst (m_ob (mod_at st' m)));
  os_new : forall m x, In x (map fst (m_ob (mod_at st' m))) -> In x (dom w m) \/ In m (ids w) \/
           exists k, In k (ids w) /\ m_pub (md w k) = Some m /\ In x (m_exports (md w k)) }.
Lemma pub_inj w m k p : wf w -> In m (ids w) -> In k (ids w) -> m_pub (md w m) = Some p -> m_pub (md w k) = Some p -> m = k.
Proof.
  intros W I J A B. destruct (wf_pub _ W _ _ I A) as (_ & _ & C & _). destruct (wf_pub _ W _ _ J B) as (_ & _ & D & _). congruence.
Qed.
Lemma ob_step_wf w st' : wf w -> ob_step w st' -> wf (with_st w st') /\ ext w (with_st w st').
Proof.
  intros W [L C U X P D N]. split.
  - destruct W as [W1 W2 W3 W4 W5 W6 W7 W8 W9 W10] eqn:EW. constructor; auto; unfold md in *; cbn [with_st w_st w_reg w_auto w_log] in *.
    + intros m H. rewrite L. auto.
    + intros m p H Q. rewrite P in Q. destruct (W4 m p H Q) as (A1 & A2 & A3 & A4). unfold iface_of, md, dom in *.
      cbn [with_st w_st w_reg]. split; [now rewrite L|]. split; [exact A2|]. split; [now rewrite P|].
      intros x Hx. rewrite X. destruct (N p x Hx) as [Y|[Y|(k & K1 & K2 & K3)]]; [auto|contradiction|].
      assert (m = k) by (eapply (pub_inj w m k p); eauto). subst. exact K3.
    + rewrite C. exact W5.
    + intros m u H Q. rewrite U in Q. destruct (W8 m u H Q) as [Y|(k & K1 & K2)]; [left; auto|right; exists k; split; auto].
      now rewrite P.
  - constructor; unfold md in *; cbn [with_st w_st w_reg w_auto w_log] in *; auto.
    + exists []. reflexivity.
    + exists []. now rewrite app_nil_r.
    + lia.
    + intros m _ x H. now rewrite X.
    + intros m p _ H. now rewrite P.
    + intros m _. exists []. rewrite U. reflexivity.
    + intros m x _ H. apply D. exact H.
Qed.
Lemma ob_step_refl w : ob_step w (w_st w).
Proof. constructor; auto. Qed.
Lemma mod_at_set st m k j : (m < length (s_mods st))%nat -> mod_at (set_mod st m k) j = if Nat.eqb m j then k else mod_at st j.
Proof. intros H. unfold mod_at, set_mod. cbn [s_mods]. now apply nth_upd. Qed.
Lemma put_dom x v l y : In y (map fst (put x v l)) <-> y = x \/ In y (map fst l).
Proof.
  unfold put. destruct (assoc_set x v l) as [l'|] eqn:E.
  - revert l' E. induction l as [|[k u] l IH]; cbn; [discriminate|]. intros l'.
    destruct (beq_spec k x) as [->|Nk]; intros H.
    + injection H as <-. cbn. split; [intros [?|?]; auto|intros [->|[?|?]]; auto].
    + destruct (assoc_set x v l) as [r|]; [|discriminate]. injection H as <-. cbn. rewrite (IH r eq_refl). intuition.
  - cbn. intuition.
Qed.
Lemma assoc_dom x l : assoc x l <> None <-> In x (map fst l).
Proof.
  induction l as [|[k v] l IH]; cbn; [split; [congruence|intros []]|]. destruct (beq_spec k x) as [->|N].
  - split; [auto|congruence].
  - rewrite IH. split; [auto|]. intros [?|?]; [contradiction|auto].
Qed.
Lemma ob_set_step w m x v : wf w ->
  In m (ids w) \/ In x (dom w m) \/ (exists k, In k (ids w) /\ m_pub (md w k) = Some m /\ In x (m_exports (md w k))) ->
  ob_step w (ob_set (w_st w) m x v).
Proof.
  intros W H. destruct (Nat.ltb_spec m (length (s_mods (w_st w)))) as [L|L].
  - assert (M : forall j, mod_at (ob_set (w_st w) m x v) j =
        if Nat.eqb m j then mkMod (put x v (m_ob (md w m))) (m_uses (md w m)) (m_exports (md w m)) (m_pub (md w m)) else md w j).
    { intros j. unfold ob_set. cbv zeta. rewrite mod_at_set by auto. reflexivity. }
    constructor.
    + unfold ob_set, set_mod. cbn. apply upd_length.
    + reflexivity.
    + intros j. rewrite M. destruct (Nat.eqb_spec m j) as [->|]; reflexivity.
    + intros j. rewrite M. destruct (Nat.eqb_spec m j) as [->|]; reflexivity.
    + intros j. rewrite M. destruct (Nat.eqb_spec m j) as [->|]; reflexivity.
    + intros j y Hy. rewrite M. destruct (Nat.eqb_spec m j) as [->|]; [|exact Hy]. cbn [m_ob]. apply put_dom. auto.
    + intros j y. rewrite M. destruct (Nat.eqb_spec m j) as [->|]; [|auto]. cbn [m_ob]. rewrite put_dom. intros [->|Hy]; [|auto].
      destruct H as [H|[H|H]]; auto.
  - replace (ob_set (w_st w) m x v) with (w_st w); [apply ob_step_refl|]. unfold ob_set, set_mod. rewrite upd_out by auto.
    destruct (w_st w); reflexivity.
Qed.
Lemma set_frame_step w a f : ob_step w (set_frame (w_st w) a f).
Proof. constructor; auto. Qed.
Lemma env_insert_step w e x v b : ob_step w (env_insert (w_st w) e x v b).
Proof.
  unfold env_insert. destruct (search_entry (w_st w) e x b) as [[a u]|]; [apply set_frame_step|].
  destruct (e_chain e); [apply ob_step_refl|apply set_frame_step].
Qed.
Definition env_ok (w : world) (e : env) : Prop := forall m, e_mod e = Some m -> In m (ids w).
Lemma define_var_step w e x v : wf w -> env_ok w e -> ob_step w (do_define_var (w_st w) e x v).
Proof.
  intros W E. unfold do_define_var. assert (C := wf_cur _ W).
  destruct (e_chain e) as [|a [|b c]].
  1,2: destruct (assoc x (frame_at (w_st w) 0)); [apply set_frame_step|apply ob_set_step; auto].
  destruct (e_mod e) as [m|] eqn:M; [apply ob_set_step; auto|apply env_insert_step].
Qed.
Lemma define_proc_step w x v : wf w -> ob_step w (do_define_proc (w_st w) x v).
Proof. intros W. apply ob_set_step; auto. left. apply wf_cur, W. Qed.
Lemma mod_find_dom st m x k v : mod_find st m x = Some (k, v) -> In x (map fst (m_ob (mod_at st k))).
Proof.
  intros H. apply mod_find_some, first_bound_bound in H. destruct H as [_ H]. apply assoc_dom. unfold mod_at. cbn in H. rewrite H. discriminate.
Qed.
Lemma do_set_step w e x v : wf w -> ob_step w (do_set (w_st w) e x v).
Proof.
  intros W. unfold do_set. destruct (search_entry (w_st w) e x true) as [[a u]|]; [apply set_frame_step|].
  destruct (mod_find (w_st w) (s_cur (w_st w)) x) as [[k u]|] eqn:E; [|apply env_insert_step].
  apply ob_set_step; auto. right. left. eapply mod_find_dom; eauto.
Qed.
Lemma make_env_step w e : ob_step w (snd (make_env (w_st w) e)).
Proof. constructor; auto. Qed.

(** * The other changes *)
Lemma enter_wf w m : wf w -> In m (ids w) -> wf (enter m w) /\ ext w (enter m w).
Proof.
  intros [W1 W2 W3 W4 W5 W6 W7 W8 W9 W10] I. split.
  - constructor; auto.
  - constructor; auto; try (exists []; reflexivity). exists []. cbn. now rewrite app_nil_r.
Qed.
Lemma loads_app l1 l2 : loads (l1 ++ l2) = loads l1 ++ loads l2.
Proof. induction l1 as [|[] l1 IH]; cbn; auto. now rewrite IH. Qed.
Lemma add_log_wf w e : wf w -> (forall n p, e <> EvLoad n p) -> wf (add_log w e) /\ ext w (add_log w e).
Proof.
  intros [W1 W2 W3 W4 W5 W6 W7 W8 W9 W10] I.
  assert (L : loads (w_log w ++ [e]) = loads (w_log w)).
  { rewrite loads_app. destruct e; cbn; try apply app_nil_r. exfalso. eapply I; eauto. }
  split.
  - constructor; auto; cbn [add_log w_log w_reg]; rewrite L; auto.
  - constructor; auto; try (exists []; reflexivity). exists [e]. reflexivity.
Qed.
Lemma NoDup_snoc {A} (l : list A) x : NoDup l -> ~ In x l -> NoDup (l ++ [x]).
Proof.
  intros N I. induction N as [|y l H N IH]; cbn; [constructor; [intros []|constructor]|].
  constructor; [|apply IH; intros Q; apply I; now right].
  rewrite in_app_iff. intros [Q|[Q|[]]]; [auto|]. apply I. left. auto.
Qed.
Lemma add_log_load_wf w n p : wf w -> In n (map fst (w_reg w)) -> ~ In n (loads (w_log w)) ->
  wf (add_log w (EvLoad n p)) /\ ext w (add_log w (EvLoad n p)).
Proof.
  intros [W1 W2 W3 W4 W5 W6 W7 W8 W9 W10] I J.
  assert (L : loads (w_log w ++ [EvLoad n p]) = loads (w_log w) ++ [n]) by now rewrite loads_app.
  split.
  - constructor; auto; cbn [add_log w_log w_reg]; rewrite L; auto.
    + apply NoDup_snoc; auto.
    + intros k H. apply in_app_or in H. destruct H as [H|[<-|[]]]; auto.
  - constructor; auto; try (exists []; reflexivity). exists [EvLoad n p]. reflexivity.
Qed.
(* a module is created and registered *)
Definition register (n : list atom) (w : world) : world :=
  mkWorld (snd (new_module (w_st w))) ((n, length (s_mods (w_st w))) :: w_reg w) (w_auto w) (w_log w).
Lemma mod_at_new st j : mod_at (snd (new_module st)) j = mod_at st j.
Proof.
  unfold mod_at, new_module. cbn [snd s_mods]. destruct (Nat.ltb_spec j (length (s_mods st))) as [L|L].
  - now rewrite app_nth1.
  - rewrite app_nth2 by auto. rewrite (nth_overflow (s_mods st)) by auto. destruct (j - length (s_mods st))%nat as [|[|k]]; reflexivity.
Qed.
Lemma mod_at_out st j : (length (s_mods st) <= j)%nat -> mod_at st j = nomod.
Proof. intros H. unfold mod_at. now apply nth_overflow. Qed.
Lemma register_wf n w : wf w -> ~ In n (map fst (w_reg w)) -> wf (register n w) /\ ext w (register n w).
Proof.
  intros [W1 W2 W3 W4 W5 W6 W7 W8 W9 W10] I.
  assert (M : forall j, md (register n w) j = md w j) by (intros j; apply mod_at_new).
  assert (K : ids (register n w) = length (s_mods (w_st w)) :: ids w) by reflexivity.
  assert (LN : length (s_mods (w_st (register n w))) = S (length (s_mods (w_st w)))).
  { cbn. rewrite app_length. cbn. lia. }
  assert (F : ~ In (length (s_mods (w_st w))) (ids w)). { intros Q. apply W3 in Q. lia. }
  assert (O : md w (length (s_mods (w_st w))) = nomod) by (apply mod_at_out; auto).
  split.
  - constructor; auto; unfold dom in *.
    + cbn [register w_reg map fst]. constructor; auto.
    + rewrite K. constructor; auto.
    + intros m. rewrite K, LN. intros [<-|H]; [lia|]. apply W3 in H. lia.
    + intros m p. rewrite K, M. intros [<-|H] Q.
      * rewrite O in Q. discriminate.
      * destruct (W4 m p H Q) as (A1 & A2 & A3 & A4). unfold iface_of. unfold dom. rewrite !M, LN, K.
        split; [lia|]. split; [|split; auto]. intros [E|E]; [lia|auto].
    + rewrite K. right. exact W5.
    + rewrite K. right. exact W6.
    + intros m s H. rewrite K. right. eapply W7; eauto.
    + intros m u. rewrite K, M. intros [<-|H] Q.
      * rewrite O in Q. destruct Q.
      * destruct (W8 m u H Q) as [Y|(k & K1 & K2)]; [left; right; auto|right; exists k; split; [right; auto|]]. now rewrite M.
    + intros k H. right. auto.
  - constructor; unfold dom.
    + exists [(n, length (s_mods (w_st w)))]. reflexivity.
    + exists []. cbn. now rewrite app_nil_r.
    + rewrite LN. lia.
    + intros m _ x. now rewrite M.
    + intros m p _. now rewrite M.
    + intros m _. exists []. now rewrite M.
    + intros m x _. now rewrite M.
Qed.
(* a module is used *)
Lemma add_use_wf m u w : wf w -> In m (ids w) -> In u (ids w) -> wf (add_use m u w) /\ ext w (add_use m u w).
Proof.
  intros W Im Iu. assert (L := wf_lt _ W _ Im).
  set (i := match m_pub (md w u) with Some p => p | None => u end).
  assert (M : forall j, md (add_use m u w) j =
      if Nat.eqb m j then mkMod (m_ob (md w m)) (i :: m_uses (md w m)) (m_exports (md w m)) (m_pub (md w m)) else md w j).
  { intros j. unfold md, add_use, mod_use. cbn [with_st w_st]. cbv zeta. now rewrite mod_at_set by auto. }
  assert (Mo : forall j, m_ob (md (add_use m u w) j) = m_ob (md w j)).
  { intros j. rewrite M. destruct (Nat.eqb_spec m j) as [->|]; reflexivity. }
  assert (Me : forall j, m_exports (md (add_use m u w) j) = m_exports (md w j)).
  { intros j. rewrite M. destruct (Nat.eqb_spec m j) as [->|]; reflexivity. }
  assert (Mp : forall j, m_pub (md (add_use m u w) j) = m_pub (md w j)).
  { intros j. rewrite M. destruct (Nat.eqb_spec m j) as [->|]; reflexivity. }
  assert (LN : length (s_mods (w_st (add_use m u w))) = length (s_mods (w_st w))).
  { cbn. apply upd_length. }
  destruct W as [W1 W2 W3 W4 W5 W6 W7 W8 W9 W10]. split.
  - constructor; auto.
    + intros k H. rewrite LN. auto.
    + intros k p H Q. rewrite Mp in Q. destruct (W4 k p H Q) as (A1 & A2 & A3 & A4). unfold iface_of, dom. rewrite LN, Mp, Mo, Me. auto.
    + intros k j H. rewrite M. destruct (Nat.eqb_spec m k) as [->|].
      * cbn [m_uses]. intros [<-|Q].
        -- unfold i. destruct (m_pub (md w u)) as [p|] eqn:E; [right; exists u; split; auto; now rewrite Mp|left; auto].
        -- destruct (W8 k j H Q) as [Y|(b & K1 & K2)]; [left; auto|right; exists b; split; auto; now rewrite Mp].
      * intros Q. destruct (W8 k j H Q) as [Y|(b & K1 & K2)]; [left; auto|right; exists b; split; auto; now rewrite Mp].
  - constructor.
    + exists []. reflexivity.
    + exists []. cbn. now rewrite app_nil_r.
    + lia.
    + intros k _ x. now rewrite Me.
    + intros k p _. now rewrite Mp.
    + intros k _. rewrite M. destruct (Nat.eqb_spec m k) as [->|]; [exists [i]; reflexivity|exists []; reflexivity].
    + intros k x _. unfold dom. now rewrite Mo.
Qed.
Lemma add_auto_wf m n l w : wf w -> In m (ids w) -> wf (add_auto m n l w) /\ ext w (add_auto m n l w).
Proof.
  intros W I. destruct l as [|a l]; [split; [exact W|apply ext_refl]|].
  destruct W as [W1 W2 W3 W4 W5 W6 W7 W8 W9 W10]. split.
  - constructor; auto. cbn [add_auto w_auto]. intros k s [[= -> <-]|H]; [exact I|eapply W7; eauto].
  - constructor; auto; try (exists []; reflexivity). exists []. cbn. now rewrite app_nil_r.
Qed.
Lemma take_auto_sub m x l n r : take_auto m x l = Some (n, r) ->
  exists l1 xs l2, l = l1 ++ (m, (n, xs)) :: l2 /\ r = l1 ++ l2 /\ In x xs /\
    forall k ys, In (m, (k, ys)) l1 -> ~ In x ys.
Proof.
  revert r. induction l as [|[k [n' xs]] l IH]; cbn; [discriminate|]. intros r.
  assert (HN : forall ys, has_name x ys = true <-> In x ys).
  { intros ys. unfold has_name. rewrite existsb_exists. split.
    - intros (y & I & E). destruct (beq_spec y x); [now subst|discriminate].
    - intros I. exists x. split; auto. apply beq_refl. }
  destruct (Nat.eqb_spec k m) as [->|N]; cbn [andb].
  - destruct (has_name x xs) eqn:E.
    + intros [= -> <-]. exists [], xs, l. split; [auto|]. split; [auto|]. split; [now apply HN|]. intros ? ? [].
    + destruct (take_auto m x l) as [[n2 r2]|]; [|discriminate]. intros [= -> <-].
      destruct (IH r2 eq_refl) as (l1 & ys & l2 & -> & -> & A & B). exists ((m, (n', xs)) :: l1), ys, l2.
      split; [auto|]. split; [auto|]. split; [auto|]. intros k0 zs [[= <- <-]|H]; [|eauto].
      intros Q. apply HN in Q. congruence.
  - destruct (take_auto m x l) as [[n2 r2]|]; [|discriminate]. intros [= -> <-].
    destruct (IH r2 eq_refl) as (l1 & ys & l2 & -> & -> & A & B). exists ((k, (n', xs)) :: l1), ys, l2.
    split; [auto|]. split; [auto|]. split; [auto|]. intros k0 zs [[= <- <- <-]|H]; [congruence|eauto].
Qed.
Lemma drop_auto_wf w r : wf w -> (forall s, In s r -> In s (w_auto w)) ->
  wf (mkWorld (w_st w) (w_reg w) r (w_log w)) /\ ext w (mkWorld (w_st w) (w_reg w) r (w_log w)).
Proof.
  intros [W1 W2 W3 W4 W5 W6 W7 W8 W9 W10] H. split.
  - constructor; auto. cbn [w_auto]. intros m s I. eapply W7. apply H. eauto.
  - constructor; auto; try (exists []; reflexivity). exists []. cbn. now rewrite app_nil_r.
Qed.

(** * export *)
Definition note_export (m : nat) (x : list Z) (w : world) : world :=
  let k := md w m in with_st w (set_mod (w_st w) m (mkMod (m_ob k) (m_uses k) (x :: m_exports k) (m_pub k))).
Lemma note_export_wf m x w : wf w -> In m (ids w) -> wf (note_export m x w) /\ ext w (note_export m x w) /\
  In x (m_exports (md (note_export m x w) m)) /\ (forall j, m_pub (md (note_export m x w) j) = m_pub (md w j)) /\
  (forall j, m_ob (md (note_export m x w) j) = m_ob (md w j)).
Proof.
  intros W Im. assert (L := wf_lt _ W _ Im).
  assert (M : forall j, md (note_export m x w) j =
      if Nat.eqb m j then mkMod (m_ob (md w m)) (m_uses (md w m)) (x :: m_exports (md w m)) (m_pub (md w m)) else md w j).
  { intros j. unfold md at 1, note_export. cbn [with_st w_st]. cbv zeta. now rewrite mod_at_set by auto. }
  assert (Mo : forall j, m_ob (md (note_export m x w) j) = m_ob (md w j)).
  { intros j. rewrite M. destruct (Nat.eqb_spec m j) as [->|]; reflexivity. }
  assert (Mu : forall j, m_uses (md (note_export m x w) j) = m_uses (md w j)).
  { intros j. rewrite M. destruct (Nat.eqb_spec m j) as [->|]; reflexivity. }
  assert (Mp : forall j, m_pub (md (note_export m x w) j) = m_pub (md w j)).
  { intros j. rewrite M. destruct (Nat.eqb_spec m j) as [->|]; reflexivity. }
  assert (Me : forall j y, In y (m_exports (md w j)) -> In y (m_exports (md (note_export m x w) j))).
  { intros j y. rewrite M. destruct (Nat.eqb_spec m j) as [->|]; [right; auto|auto]. }
  assert (LN : length (s_mods (w_st (note_export m x w))) = length (s_mods (w_st w))) by (cbn; apply upd_length).
  destruct W as [W1 W2 W3 W4 W5 W6 W7 W8 W9 W10]. split; [|split; [|split; [|split]]]; auto.
  - constructor; auto.
    + intros k H. rewrite LN. auto.
    + intros k p H Q. rewrite Mp in Q. destruct (W4 k p H Q) as (A1 & A2 & A3 & A4). unfold iface_of, dom. rewrite LN, Mp, Mo.
      split; [auto|]. split; [auto|]. split; [auto|]. intros y Hy. apply Me. auto.
    + intros k j H. rewrite Mu. intros Q.
      destruct (W8 k j H Q) as [Y|(b & K1 & K2)]; [left; auto|right; exists b; split; auto; now rewrite Mp].
  - constructor; auto.
    + exists []. reflexivity.
    + exists []. cbn. now rewrite app_nil_r.
    + lia.
    + intros k p _. now rewrite Mp.
    + intros k _. rewrite Mu. exists []. reflexivity.
    + intros k y _. unfold dom. now rewrite Mo.
  - rewrite M, Nat.eqb_refl. now left.
Qed.
(* the empty interface is made *)
Definition make_iface (m : nat) (w : world) : world :=
  let k := md w m in
  let p := length (s_mods (w_st w)) in
  with_st w (set_mod (set_mod (snd (new_module (w_st w))) p (mkMod [] [] [] (Some m))) m (mkMod (m_ob k) (m_uses k) (m_exports k) (Some p))).
Lemma make_iface_wf m w : wf w -> In m (ids w) -> m_pub (md w m) = None ->
  wf (make_iface m w) /\ ext w (make_iface m w) /\ m_pub (md (make_iface m w) m) = Some (length (s_mods (w_st w))) /\
  (forall j, m_exports (md (make_iface m w) j) = m_exports (md w j)) /\
  (forall j, m_ob (md (make_iface m w) j) = m_ob (md w j)).
Proof.
  intros W Im P0. assert (L := wf_lt _ W _ Im). set (p := length (s_mods (w_st w))).
  assert (LN : length (s_mods (w_st (make_iface m w))) = S p).
  { unfold make_iface, set_mod, new_module. cbn [with_st w_st s_mods snd]. rewrite !upd_length, app_length. cbn. subst p. lia. }
  assert (M : forall j, md (make_iface m w) j =
      if Nat.eqb m j then mkMod (m_ob (md w m)) (m_uses (md w m)) (m_exports (md w m)) (Some p)
      else if Nat.eqb p j then mkMod [] [] [] (Some m) else md w j).
  { intros j. unfold md at 1, make_iface. cbn [with_st w_st]. cbv zeta. fold p.
    assert (LL : length (s_mods (snd (new_module (w_st w)))) = S p).
    { unfold new_module. cbn. rewrite app_length. cbn. subst p. lia. }
    rewrite mod_at_set by (unfold set_mod; cbn [s_mods]; rewrite upd_length, LL; subst p; lia).
    destruct (Nat.eqb m j); auto. rewrite mod_at_set by (rewrite LL; lia). destruct (Nat.eqb p j); auto. apply mod_at_new. }
  assert (NP : md w p = nomod) by (apply mod_at_out; auto).
  assert (Pn : ~ In p (ids w)). { intros Q. apply (wf_lt _ W) in Q. subst p. lia. }
  assert (Mo : forall j, m_ob (md (make_iface m w) j) = m_ob (md w j)).
  { intros j. rewrite M. destruct (Nat.eqb_spec m j) as [->|]; [reflexivity|]. destruct (Nat.eqb_spec p j) as [<-|]; [|reflexivity]. now rewrite NP. }
  assert (Mu : forall j, m_uses (md (make_iface m w) j) = m_uses (md w j)).
  { intros j. rewrite M. destruct (Nat.eqb_spec m j) as [->|]; [reflexivity|]. destruct (Nat.eqb_spec p j) as [<-|]; [|reflexivity]. now rewrite NP. }
  assert (Me : forall j, m_exports (md (make_iface m w) j) = m_exports (md w j)).
  { intros j. rewrite M. destruct (Nat.eqb_spec m j) as [->|]; [reflexivity|]. destruct (Nat.eqb_spec p j) as [<-|]; [|reflexivity]. now rewrite NP. }
  assert (Mp : forall j q, m_pub (md w j) = Some q -> m_pub (md (make_iface m w) j) = Some q).
  { intros j q H. rewrite M. destruct (Nat.eqb_spec m j) as [->|]; [congruence|]. destruct (Nat.eqb_spec p j) as [<-|]; [|auto]. rewrite NP in H. discriminate. }
  assert (Mp2 : forall j q, In j (ids w) -> j <> m -> m_pub (md (make_iface m w) j) = Some q -> m_pub (md w j) = Some q).
  { intros j q I N. rewrite M. destruct (Nat.eqb_spec m j) as [->|]; [congruence|]. destruct (Nat.eqb_spec p j) as [<-|]; [contradiction|auto]. }
  assert (W' := W). destruct W as [W1 W2 W3 W4 W5 W6 W7 W8 W9 W10]. split; [|split; [|split; [|split]]]; auto.
  - constructor; auto.
    + intros k H. rewrite LN. apply W3 in H. subst p. lia.
    + intros k q H Q. destruct (Nat.eq_dec k m) as [->|N].
      * rewrite M, Nat.eqb_refl in Q. cbn in Q. injection Q as <-. unfold iface_of, dom. rewrite LN, Mo, NP. cbn [m_ob map].
        split; [lia|]. split; [auto|]. split; [|intros y []]. rewrite M. destruct (Nat.eqb_spec m p) as [->|]; [contradiction|].
        now rewrite Nat.eqb_refl.
      * apply Mp2 in Q; auto. destruct (W4 k q H Q) as (A1 & A2 & A3 & A4). unfold iface_of, dom. rewrite LN, Mo, Me.
        split; [subst p; lia|]. split; [auto|]. split; [|auto]. apply Mp. auto.
    + intros k j H. rewrite Mu. intros Q.
      destruct (W8 k j H Q) as [Y|(b & K1 & K2)]; [left; auto|right; exists b; split; auto].
  - constructor; auto.
    + exists []. reflexivity.
    + exists []. cbn. now rewrite app_nil_r.
    + rewrite LN. subst p. lia.
    + intros k _ y. now rewrite Me.
    + intros k _. rewrite Mu. exists []. reflexivity.
    + intros k y _. unfold dom. now rewrite Mo.
  - rewrite M, Nat.eqb_refl. reflexivity.
Qed.
Definition fill (m p : nat) (s : state) (x : list Z) : state := match ob_lookup s m x with Some v => ob_set s p x v | None => s end.
Lemma fill_wf m p l : forall w, wf w -> In m (ids w) -> m_pub (md w m) = Some p -> (forall x, In x l -> In x (m_exports (md w m))) ->
  wf (with_st w (fold_left (fill m p) l (w_st w))) /\ ext w (with_st w (fold_left (fill m p) l (w_st w))).
Proof.
  induction l as [|x l IH]; intros w W I P H.
  - cbn [fold_left]. replace (with_st w (w_st w)) with w by (destruct w; reflexivity). split; [exact W|apply ext_refl].
  - cbn [fold_left]. assert (S1 : ob_step w (fill m p (w_st w) x)).
    { unfold fill. destruct (ob_lookup (w_st w) m x); [|apply ob_step_refl]. apply ob_set_step; auto. right. right. exists m.
      split; [auto|]. split; [auto|]. apply H. now left. }
    assert (P1 := os_pub _ _ S1). assert (X1 := os_exports _ _ S1).
    destruct (ob_step_wf _ _ W S1) as [W1 E1].
    specialize (IH (with_st w (fill m p (w_st w) x)) W1). cbn [with_st w_st] in IH. unfold with_st in IH at 1 3; cbn [w_reg w_auto w_log] in IH.
    destruct IH as [A B]; [exact I|unfold md; cbn; now rewrite P1|intros y Hy; unfold md; cbn; rewrite X1; apply H; now right|].
    split; [exact A|]. eapply ext_trans; eauto.
Qed.
Lemma ensure_pub_world m w : In m (ids w) -> wf w ->
  let '(p, st2) := ensure_pub (w_st w) m in
  wf (with_st w st2) /\ ext w (with_st w st2) /\ m_pub (md (with_st w st2) m) = Some p.
Proof.
  intros I W. unfold ensure_pub. destruct (m_pub (mod_at (w_st w) m)) as [p|] eqn:P.
  - replace (with_st w (w_st w)) with w by (destruct w; reflexivity). split; [auto|]. split; [apply ext_refl|exact P].
  - cbn [new_module]. destruct (make_iface_wf m w W I P) as (W1 & E1 & P1 & X1 & _).
    assert (I1 : In m (ids (make_iface m w))) by exact I.
    destruct (fill_wf m (length (s_mods (w_st w))) (m_exports (mod_at (w_st w) m)) (make_iface m w) W1 I1 P1) as [W2 E2].
    { intros x Hx. rewrite X1. exact Hx. }
    split; [exact W2|]. split; [eapply ext_trans; eauto|]. exact (ext_pub _ _ E2 _ _ I1 P1).
Qed.
