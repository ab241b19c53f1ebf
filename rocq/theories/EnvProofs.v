From Coq Require Import Lia.
From Verif Require Import Base ParseModel ParseProofs EnvModel EnvSpec.
Local Open Scope list_scope.

Lemma beq_refl a : beq a a = true.
Proof. induction a; cbn; auto. rewrite Z.eqb_refl; auto. Qed.
Lemma beq_spec a : forall b, reflect (a = b) (beq a b).
Proof.
  induction a as [|x a IH]; intros [|y b]; cbn; try (constructor; congruence).
  destruct (Z.eqb_spec x y); cbn; [|constructor; congruence]. destruct (IH b); constructor; congruence.
Qed.
Lemma assoc_put x v l y : assoc y (put x v l) = if beq x y then Some v else assoc y l.
Proof.
  unfold put. destruct (assoc_set x v l) as [l'|] eqn:E.
  - revert l' E. induction l as [|[k w] l IH]; intros l' E; cbn in E; [discriminate|]. destruct (beq_spec k x) as [-> |N].
    + injection E as <-. cbn. destruct (beq_spec x y); auto.
    + destruct (assoc_set x v l) as [r|]; [|discriminate]. injection E as <-. cbn. rewrite IH by auto.
      destruct (beq_spec k y) as [-> |]; destruct (beq_spec x y) as [-> |]; auto. congruence.
  - reflexivity.
Qed.
Lemma nth_upd {A} (l : list A) i x d j : (i < length l)%nat -> nth j (upd l i x) d = if Nat.eqb i j then x else nth j l d.
Proof.
  revert i j. induction l as [|y l IH]; intros [|i] [|j] L; cbn in *; try lia; auto. apply IH. lia.
Qed.
Lemma upd_length {A} (l : list A) i x : length (upd l i x) = length l.
Proof. revert i. induction l as [|y l IH]; intros [|i]; cbn; auto. Qed.
Lemma upd_out {A} (l : list A) i x : (length l <= i)%nat -> upd l i x = l.
Proof. revert i. induction l as [|y l IH]; intros [|i] L; cbn in *; auto; [lia|]. now rewrite IH by lia. Qed.

(** the searches are first_bound over lists of places *)
Lemma first_bound_app st l1 l2 x : first_bound st (l1 ++ l2) x =
  match first_bound st l1 x with Some r => Some r | None => first_bound st l2 x end.
Proof. induction l1 as [|p l1 IH]; cbn; auto. destruct (bound st p x); auto. Qed.
Lemma search_chain_first st c x : search_chain st c x =
  match first_bound st (map InFrame c) x with Some (InFrame a, v) => Some (a, v) | Some (InModule a, v) => Some (a, v) | None => None end.
Proof. induction c as [|a c IH]; cbn; auto. unfold frame_at. destruct (assoc x (nth a (s_frames st) [])); auto. Qed.
Lemma uses_first st l x : uses_lookup st l x =
  match first_bound st (map InModule l) x with Some (InFrame a, v) => Some (a, v) | Some (InModule a, v) => Some (a, v) | None => None end.
Proof. induction l as [|a c IH]; cbn; auto. unfold ob_lookup, mod_at. destruct (assoc x _); auto. Qed.
Lemma first_frame st c x p v : first_bound st (map InFrame c) x = Some (p, v) -> exists a, p = InFrame a.
Proof. induction c as [|a c IH]; cbn; [discriminate|]. destruct (assoc x _); [intros [= <- <-]; eauto|auto]. Qed.
Lemma first_module st c x p v : first_bound st (map InModule c) x = Some (p, v) -> exists a, p = InModule a.
Proof. induction c as [|a c IH]; cbn; [discriminate|]. destruct (assoc x _); [intros [= <- <-]; eauto|auto]. Qed.
Lemma search_chain_some st c x a v : search_chain st c x = Some (a, v) <-> first_bound st (map InFrame c) x = Some (InFrame a, v).
Proof.
  rewrite search_chain_first. destruct (first_bound st (map InFrame c) x) as [[p w]|] eqn:E; [|split; discriminate].
  destruct (first_frame _ _ _ _ _ E) as (b & ->). split; intros [= -> ->]; auto.
Qed.
Lemma search_chain_none st c x : search_chain st c x = None <-> first_bound st (map InFrame c) x = None.
Proof.
  rewrite search_chain_first. destruct (first_bound st (map InFrame c) x) as [[p w]|] eqn:E; [|tauto].
  destruct (first_frame _ _ _ _ _ E) as (b & ->). split; discriminate.
Qed.
Lemma mod_find_first st m x : mod_find st m x =
  match first_bound st (module_places st m) x with Some (InFrame a, v) => Some (a, v) | Some (InModule a, v) => Some (a, v) | None => None end.
Proof.
  unfold mod_find, module_places. cbn [first_bound bound]. unfold ob_lookup, mod_at.
  destruct (assoc x (m_ob (nth m (s_mods st) (mkMod [] [] [] None)))) eqn:E; auto.
  rewrite uses_first, first_bound_app.
  destruct (first_bound st (map InModule (m_uses (nth m (s_mods st) (mkMod [] [] [] None)))) x) as [[p w]|] eqn:F.
  - destruct (first_module _ _ _ _ _ F) as (b & ->). reflexivity.
  - cbn [first_bound bound]. unfold root. destruct (Nat.eqb_spec m 0) as [-> |]; [rewrite E; reflexivity|].
    destruct (assoc x (m_ob (nth 0 (s_mods st) _))); auto.
Qed.
Lemma module_places_module st m x p v : first_bound st (module_places st m) x = Some (p, v) -> exists a, p = InModule a.
Proof.
  unfold module_places. change (InModule m :: map InModule (m_uses (nth m (s_mods st) (mkMod [] [] [] None))) ++ [InModule 0])
    with (map InModule [m] ++ map InModule (m_uses (nth m (s_mods st) (mkMod [] [] [] None))) ++ map InModule [0%nat]).
  rewrite <- !map_app. apply first_module.
Qed.
Lemma mod_find_some st m x a v : mod_find st m x = Some (a, v) <-> first_bound st (module_places st m) x = Some (InModule a, v).
Proof.
  rewrite mod_find_first. destruct (first_bound st (module_places st m) x) as [[p w]|] eqn:E; [|split; discriminate].
  destruct (module_places_module _ _ _ _ _ E) as (b & ->). split; intros [= -> ->]; auto.
Qed.
Lemma mod_find_none st m x : mod_find st m x = None <-> first_bound st (module_places st m) x = None.
Proof.
  rewrite mod_find_first. destruct (first_bound st (module_places st m) x) as [[p w]|] eqn:E; [|tauto].
  destruct (module_places_module _ _ _ _ _ E) as (b & ->). split; discriminate.
Qed.
Lemma mod_search_first st m x : mod_search st m x = match first_bound st (module_places st m) x with Some (_, v) => Some v | None => None end.
Proof.
  unfold mod_search. rewrite mod_find_first. destruct (first_bound st (module_places st m) x) as [[[a|a] v]|]; auto.
Qed.
Lemma exist_chain st e x v : env_exist st e x = Some v -> exists a, search_entry st e x true = Some (a, v).
Proof.
  unfold env_exist, search_entry. destruct (e_chain e) as [|a c]; cbn; [discriminate|].
  destruct (assoc x (frame_at st a)); [|discriminate]. intros [= ->]. eauto.
Qed.
Lemma env_search_actual st e x : proper_env e ->
  env_search st e x = match first_bound st (actual st e) x with Some (_, v) => Some v | None => None end.
Proof.
  intros (l & L & N0).
  assert (LX : lexical e ++ [InFrame 0] = map InFrame (e_chain e)).
  { unfold lexical. rewrite L, removelast_last, map_app. reflexivity. }
  unfold actual. rewrite app_assoc, LX. rewrite !first_bound_app.
  assert (SE : search_entry st e x true = search_chain st (e_chain e) x) by reflexivity.
  unfold env_search. destruct (env_exist st e x) as [v|] eqn:X.
  - destruct (exist_chain _ _ _ _ X) as (a & Y). rewrite SE in Y. apply search_chain_some in Y. now rewrite Y.
  - rewrite SE. destruct (search_chain st (e_chain e) x) as [[a v]|] eqn:Y.
    + apply search_chain_some in Y. now rewrite Y.
    + assert (G : assoc x (frame_at st 0) = None).
      { rewrite L in Y. clear - Y. induction l as [|a l IH]; cbn in Y.
        - destruct (assoc x (frame_at st 0)); [discriminate|auto].
        - destruct (assoc x (frame_at st a)); [discriminate|auto]. }
      apply search_chain_none in Y. rewrite Y. rewrite G. unfold module_of. rewrite mod_search_first.
      destruct (e_mod e) as [m|].
      * rewrite mod_search_first. destruct (first_bound st (module_places st m) x) as [[p v]|]; auto.
        destruct (first_bound st (module_places st (s_cur st)) x) as [[p v]|]; auto.
      * cbn [first_bound]. destruct (first_bound st (module_places st (s_cur st)) x) as [[p v]|]; auto.
Qed.
Lemma first_bound_bound st l x p v : first_bound st l x = Some (p, v) -> In p l /\ bound st p x = Some v.
Proof.
  induction l as [|q l IH]; cbn; [discriminate|]. destruct (bound st q x) eqn:E.
  - intros [= <- <-]. auto.
  - intros H. apply IH in H. tauto.
Qed.
Lemma first_bound_none st l x : first_bound st l x = None <-> forall p, In p l -> bound st p x = None.
Proof.
  induction l as [|q l IH]; cbn.
  - split; [intros _ p []|auto].
  - destruct (bound st q x) eqn:E.
    + split; [discriminate|]. intros H. specialize (H q (or_introl eq_refl)). congruence.
    + rewrite IH. split; [intros H p [<- |I]; auto|intros H p I; auto].
Qed.
Lemma first_bound_ext st st' l x : (forall p, In p l -> bound st' p x = bound st p x) -> first_bound st' l x = first_bound st l x.
Proof.
  induction l as [|q l IH]; intros H; cbn; auto. rewrite (H q) by now left. destruct (bound st q x); auto. apply IH. intros p I. apply H. now right.
Qed.
(* replacing the value of the first binding found *)
Lemma first_bound_update st st' l x p v w : first_bound st l x = Some (p, v) -> bound st' p x = Some w ->
  only_changed st st' p x -> first_bound st' l x = Some (p, w).
Proof.
  intros F B O. induction l as [|q l IH]; cbn in *; [discriminate|]. destruct (bound st q x) eqn:E.
  - injection F as E1 E2. subst q. rewrite B. reflexivity.
  - assert (q <> p). { intros ->. apply first_bound_bound in F. destruct F as [_ F]. congruence. }
    rewrite (O q x) by auto. rewrite E. auto.
Qed.

(** state updates *)
Lemma bound_set_frame st a f p y : (a < length (s_frames st))%nat ->
  bound (set_frame st a f) p y = match p with InFrame b => if Nat.eqb a b then assoc y f else bound st p y | _ => bound st p y end.
Proof.
  intros L. destruct p as [b|m]; cbn; auto. rewrite nth_upd by auto. destruct (Nat.eqb a b); auto.
Qed.
Lemma bound_set_mod st a k p y : (a < length (s_mods st))%nat ->
  bound (set_mod st a k) p y = match p with InModule b => if Nat.eqb a b then assoc y (m_ob k) else bound st p y | _ => bound st p y end.
Proof.
  intros L. destruct p as [b|m]; cbn; auto. rewrite nth_upd by auto. destruct (Nat.eqb a m); auto.
Qed.
Lemma put_frame st a x v : (a < length (s_frames st))%nat ->
  let st' := set_frame st a (put x v (frame_at st a)) in
  bound st' (InFrame a) x = Some v /\ only_changed st st' (InFrame a) x /\ s_cur st' = s_cur st /\ s_mods st' = s_mods st.
Proof.
  intros L st'. split; [|split; [|split; reflexivity]].
  - unfold st'. rewrite bound_set_frame by auto. rewrite Nat.eqb_refl, assoc_put, beq_refl. auto.
  - intros q y H. unfold st'. rewrite bound_set_frame by auto. destruct q as [b|m]; auto. destruct (Nat.eqb_spec a b) as [-> |]; auto.
    rewrite assoc_put. destruct (beq_spec x y) as [-> |]; auto. destruct H; congruence.
Qed.
Lemma add_frame st a x v : (a < length (s_frames st))%nat -> assoc x (frame_at st a) = None ->
  let st' := set_frame st a ((x, v) :: frame_at st a) in
  bound st' (InFrame a) x = Some v /\ only_changed st st' (InFrame a) x.
Proof.
  intros L N st'. split.
  - unfold st'. rewrite bound_set_frame by auto. rewrite Nat.eqb_refl. cbn. now rewrite beq_refl.
  - intros q y H. unfold st'. rewrite bound_set_frame by auto. destruct q as [b|m]; auto. destruct (Nat.eqb_spec a b) as [-> |]; auto.
    cbn. destruct (beq_spec x y) as [-> |]; auto. destruct H; congruence.
Qed.
Lemma put_mod st m x v : (m < length (s_mods st))%nat ->
  let st' := ob_set st m x v in
  bound st' (InModule m) x = Some v /\ only_changed st st' (InModule m) x /\ s_cur st' = s_cur st /\
  forall k, m_uses (mod_at st' k) = m_uses (mod_at st k).
Proof.
  intros L st'. split; [|split; [|split; [reflexivity|]]].
  - unfold st', ob_set. rewrite bound_set_mod by auto. rewrite Nat.eqb_refl. cbn [m_ob]. rewrite assoc_put, beq_refl. auto.
  - intros q y H. unfold st', ob_set. rewrite bound_set_mod by auto. destruct q as [b|k]; auto. destruct (Nat.eqb_spec m k) as [-> |]; auto.
    cbn [m_ob]. rewrite assoc_put. destruct (beq_spec x y) as [-> |]; auto. destruct H; congruence.
  - intros k. unfold st', ob_set, mod_at. cbn [s_mods set_mod]. rewrite nth_upd by auto. destruct (Nat.eqb_spec m k) as [-> |]; auto.
Qed.
