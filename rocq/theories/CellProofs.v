(** Proofs about CellModel: it does what EvalModel does. *)
From Coq Require Import String Lia.
From Verif Require Import Base ParseModel PrintModel EnvModel EvalModel CellModel CellSpec.
Local Open Scope string_scope.
Local Open Scope list_scope.

Scheme rep_mind := Induction for rep Sort Prop with reps_mind := Induction for reps Sort Prop.
Combined Scheme rep_reps_ind from rep_mind, reps_mind.

Definition bounded (X : list nat) (h : list cell) : Prop := forall a, In a X -> (a < length h)%nat.
Record post (skip : option nat) (X : list nat) (h : list cell) (X' : list nat) (h' : list cell) : Prop := mkPost {
  po_same : forall a c, skip <> Some a -> nth_error h a = Some c -> nth_error h' a = Some c;
  po_incl : incl X X';
  po_new : forall a, In a X' -> In a X \/ (length h <= a)%nat;
  po_len : (length h <= length h')%nat;
  po_bnd : bounded X' h' }.
Lemma nth_lt {A} (l : list A) a c : nth_error l a = Some c -> (a < length l)%nat.
Proof. intro H. apply nth_error_Some. congruence. Qed.
Lemma post_refl X h : bounded X h -> post None X h X h.
Proof. intro B. split; auto. intros a H. exact H. Qed.
Lemma post_trans skip X h X1 h1 X2 h2 : post None X h X1 h1 -> post skip X1 h1 X2 h2 -> post skip X h X2 h2.
Proof.
  intros A B. split.
  - intros a c S0 H. apply (po_same _ _ _ _ _ B); [exact S0|]. apply (po_same _ _ _ _ _ A); [discriminate|exact H].
  - intros a H. apply (po_incl _ _ _ _ _ B), (po_incl _ _ _ _ _ A), H.
  - intros a H. destruct (po_new _ _ _ _ _ B _ H) as [H1|H1]; [now apply (po_new _ _ _ _ _ A)|]. right. pose proof (po_len _ _ _ _ _ A). lia.
  - pose proof (po_len _ _ _ _ _ A). pose proof (po_len _ _ _ _ _ B). lia.
  - apply B.
Qed.
Lemma post_app X h new : bounded X h -> post None X h X (h ++ new).
Proof.
  intro B. split; auto.
  - intros a c _ H. rewrite nth_error_app1; [exact H|]. eapply nth_lt; eauto.
  - intros a H. exact H.
  - rewrite app_length. lia.
  - intros a H. rewrite app_length. specialize (B a H). lia.
Qed.
Lemma rep_mono skip X h X' h' : post skip X h X' h' -> (forall a, skip = Some a -> In a X) ->
  (forall x v, rep X h x v -> rep X' h' x v) /\ (forall a vs d, reps X h a vs d -> reps X' h' a vs d).
Proof.
  intros P K. assert (N : forall a c, nth_error h a = Some c -> ~ In a X -> nth_error h' a = Some c /\ ~ In a X').
  { intros a c H I. split; [apply (po_same _ _ _ _ _ P); [intro E; apply I, K, E|exact H]|]. intro J. destruct (po_new _ _ _ _ _ P _ J); [now apply I|].
    apply nth_lt in H. lia. }
  assert (Q : (forall x v, rep X h x v -> rep X' h' x v) /\ (forall a vs d, reps X h a vs d -> reps X' h' a vs d)); [|exact Q].
  apply (rep_reps_ind X h (fun x v _ => rep X' h' x v) (fun a vs d _ => reps X' h' a vs d)); intros; try (now constructor).
  - econstructor; eauto.
  - econstructor; eauto.
  - destruct (N _ _ e n). now apply reps_last.
  - destruct (N _ _ e n). eapply reps_more; eauto.
Qed.
Lemma rep_app X h new : bounded X h -> (forall x v, rep X h x v -> rep X (h ++ new) x v) /\ (forall a vs d, reps X h a vs d -> reps X (h ++ new) a vs d).
Proof. intro B. apply (rep_mono None X h X (h ++ new)); [now apply post_app|discriminate]. Qed.
Lemma Forall2_imp {A B} (P Q : A -> B -> Prop) l m : (forall a b, P a b -> Q a b) -> Forall2 P l m -> Forall2 Q l m.
Proof. intros H F. induction F; constructor; auto. Qed.
Lemma alist_mono X h X' h' : (forall x v, rep X h x v -> rep X' h' x v) -> forall l m, same_alist X h l m -> same_alist X' h' l m.
Proof. intros M l m. apply Forall2_imp. intros a b [E R]. auto. Qed.
Lemma promise_mono skip X h X' h' : post skip X h X' h' -> (forall a, skip = Some a -> In a X) -> forall p q, same_promise X h p q -> same_promise X' h' p q.
Proof.
  intros P K p q (A & U & V). destruct (rep_mono _ _ _ _ _ P K) as [R1 R2]. split; [now apply R2|]. split; [exact U|]. destruct (cp_val p), (pr_val q); auto.
Qed.
Lemma state_mono skip X s X' h' st : post skip X (cs_cells s) X' h' -> (forall a, skip = Some a -> In a X) ->
  same_state X s st -> same_state X' (with_cells s h') st.
Proof.
  intros P K [F M C O Q]. destruct (rep_mono _ _ _ _ _ P K) as [R _]. split; cbn [with_cells cs_cells cs_frames cs_mods cs_cur cs_out cs_proms]; auto.
  - revert F. apply Forall2_imp. now apply alist_mono.
  - revert M. apply Forall2_imp. intros a b [A U]. split; [revert A; now apply alist_mono|exact U].
  - revert Q. apply Forall2_imp. intros p q H. eapply promise_mono; eauto.
Qed.
Lemma tails_mono skip X h X' h' : post skip X h X' h' -> (forall a, skip = Some a -> In a X) -> forall l vs, tails X h l vs -> tails X' h' l vs.
Proof. intros P K [a|] vs H; [|exact H]. destruct H as [d H]. exists d. now apply (proj2 (rep_mono _ _ _ _ _ P K)). Qed.
Lemma reps_inv X h a vs d : reps X h a vs d -> exists c v t, vs = v :: t /\ nth_error h a = Some c /\ ~ In a X /\ rep X h (c_data c) v /\ tails X h (c_next c) t /\
  match c_next c with None => d = c_dot c | Some b => c_dot c = false /\ reps X h b t d end.
Proof.
  intro H. inversion H; subst.
  - exists c, v, []. rewrite H2. split; [reflexivity|]. split; [assumption|]. split; [assumption|]. split; [assumption|]. split; reflexivity.
  - exists c, v, vs0. rewrite H2. split; [reflexivity|]. split; [assumption|]. split; [assumption|]. split; [assumption|]. split; [exists d; assumption|auto].
Qed.
Lemma tails_some X h a vs : tails X h (Some a) vs -> exists c v t, vs = v :: t /\ nth_error h a = Some c /\ ~ In a X /\ rep X h (c_data c) v /\ tails X h (c_next c) t.
Proof. intros [d H]. apply reps_inv in H. destruct H as (c & v & t & H1 & H2 & H3 & H4 & H5 & _). exists c, v, t. auto. Qed.

(** ** monads *)
Lemma cbind_eq {A B} (m : CM A) (f : A -> CM B) s a s1 : m s = (CRet a s1, []) -> cbind m f s = f a s1.
Proof. intro H. unfold cbind. rewrite H. destruct (f a s1). reflexivity. Qed.
Lemma cbind_get {B} a c (f : cell -> CM B) s : nth_error (cs_cells s) a = Some c -> cbind (get a) f s = f c s.
Proof. intro H. apply cbind_eq. unfold get. now rewrite H. Qed.
Lemma cbind_alloc {B} c (f : nat -> CM B) s : cbind (alloc c) f s = f (length (cs_cells s)) (with_cells s (cs_cells s ++ [c])).
Proof. apply cbind_eq. reflexivity. Qed.
Lemma cbind_assoc {A B C} (m : CM A) (f : A -> CM B) (g : B -> CM C) s : cbind (cbind m f) g s = cbind m (fun a => cbind (f a) g) s.
Proof.
  unfold cbind. destruct (m s) as [[] o]; try reflexivity. destruct (f a s0) as [[] o1]; try reflexivity. destruct (g a0 s1) as [r o2]. now rewrite app_assoc.
Qed.
Lemma throw_bind {A B} k v (f : A -> EM B) st : ebind (throw k v) f st = throw k v st.
Proof. unfold ebind, throw. destruct (find_handler _ _ _); reflexivity. Qed.
Lemma err_bind {A B} (f : A -> EM B) st : ebind err f st = err st.
Proof. apply throw_bind. Qed.

Definition sim {A B} (P : list nat -> list cell -> A -> B -> Prop) (skip : option nat) (X : list nat) (h : list cell) (r : cout A * list nat) (o : out B) : Prop :=
  snd r = [] ->
  match fst r with
  | CRet a s => exists X' b st, o = Ret b st /\ post skip X h X' (cs_cells s) /\ same_state X' s st /\ P X' (cs_cells s) a b
  | CErr s => exists X' st, o = err st /\ post skip X h X' (cs_cells s) /\ same_state X' s st
  | CWrong f s => exists X' st fv, o = wrong_args fv st /\ post skip X h X' (cs_cells s) /\ same_state X' s st /\ rep X' (cs_cells s) f fv
  | CAbort => o = OAbort
  | CUB => o = OUB
  | CFuel => True
  | COther => True
  end.
Lemma sim_bind {A B A' B'} (P : list nat -> list cell -> A -> B -> Prop) (Q : list nat -> list cell -> A' -> B' -> Prop) skip X h (m : CM A) (f : A -> CM A') s (m' : EM B) (f' : B -> EM B') st :
  (forall a, skip = Some a -> In a X) ->
  sim P None X h (m s) (m' st) ->
  (forall X' a b s' st', post None X h X' (cs_cells s') -> same_state X' s' st' -> P X' (cs_cells s') a b -> sim Q skip X' (cs_cells s') (f a s') (f' b st')) ->
  sim Q skip X h (cbind m f s) (ebind m' f' st).
Proof.
  intros K H F. assert (PS : forall X' h', post None X h X' h' -> post skip X h X' h').
  { intros X' h' [p1 p2 p3 p4 p5]. split; auto. intros a c _ E. apply p1; [discriminate|exact E]. }
  unfold sim, cbind in *. destruct (m s) as [r o]. cbn [fst snd] in *. destruct r; cbn [fst snd]; intro E.
  - destruct (f a s0) as [r o'] eqn:Ef. cbn [fst snd] in *. apply app_eq_nil in E. destruct E as [E1 E2]. specialize (H E1).
    destruct H as (X' & b & st1 & H1 & H2 & H3 & H4). specialize (F _ _ _ _ _ H2 H3 H4). rewrite Ef in F. cbn [fst snd] in F. specialize (F E2).
    unfold ebind. rewrite H1. destruct r; auto.
    + destruct F as (X2 & b2 & st2 & F1 & F2 & F3 & F4). exists X2, b2, st2. repeat (split; [auto; fail|]). split; [eapply post_trans; eauto|auto].
    + destruct F as (X2 & st2 & F1 & F2 & F3). exists X2, st2. split; [auto|]. split; [eapply post_trans; eauto|auto].
    + destruct F as (X2 & st2 & fv & F1 & F2 & F3 & F4). exists X2, st2, fv. split; [auto|]. split; [eapply post_trans; eauto|auto].
  - specialize (H E). destruct H as (X' & st1 & H1 & H2 & H3). exists X', st1. split; [|split; [now apply PS|exact H3]]. unfold ebind. rewrite H1. unfold err, throw. destruct (find_handler _ _ _); reflexivity.
  - specialize (H E). destruct H as (X' & st1 & fv & H1 & H2 & H3). exists X', st1, fv. split; [|split; [now apply PS|exact H3]]. unfold ebind. rewrite H1. unfold wrong_args, throw. destruct (find_handler _ _ _); reflexivity.
  - unfold ebind. now rewrite (H E).
  - unfold ebind. now rewrite (H E).
  - exact Logic.I.
  - exact Logic.I.
Qed.
(* a step of the heap alone *)
Lemma sim_pre {A B} (P : list nat -> list cell -> A -> B -> Prop) skip X h X1 h1 r o : post None X h X1 h1 -> sim P skip X1 h1 r o -> @sim A B P skip X h r o.
Proof.
  intros Q H E. specialize (H E). destruct (fst r); auto.
  - destruct H as (X2 & b2 & st2 & F1 & F2 & F3 & F4). exists X2, b2, st2. repeat (split; [auto; fail|]). split; [eapply post_trans; eauto|auto].
  - destruct H as (X2 & st2 & F1 & F2 & F3). exists X2, st2. split; [auto|]. split; [eapply post_trans; eauto|auto].
  - destruct H as (X2 & st2 & fv & F1 & F2 & F3 & F4). exists X2, st2, fv. split; [auto|]. split; [eapply post_trans; eauto|auto].
Qed.
Lemma sim_weak {A B} (P Q : list nat -> list cell -> A -> B -> Prop) skip X h r o : (forall X' h' a b, P X' h' a b -> Q X' h' a b) -> sim P skip X h r o -> sim Q skip X h r o.
Proof. intros W H E. specialize (H E). destruct (fst r); auto. destruct H as (X2 & b2 & st2 & F1 & F2 & F3 & F4). exists X2, b2, st2. auto. Qed.
Lemma post_none skip X h X' h' : post None X h X' h' -> post skip X h X' h'.
Proof. intros [p1 p2 p3 p4 p5]. split; auto. intros a c _ E. apply p1; [discriminate|exact E]. Qed.
Lemma sim_skip {A B} (P : list nat -> list cell -> A -> B -> Prop) skip X h r o : sim P None X h r o -> sim P skip X h r o.
Proof.
  intros H E. specialize (H E). destruct (fst r); auto.
  - destruct H as (X2 & b2 & st2 & F1 & F2 & F3 & F4). exists X2, b2, st2. auto using post_none.
  - destruct H as (X2 & st2 & F1 & F2 & F3). exists X2, st2. auto using post_none.
  - destruct H as (X2 & st2 & fv & F1 & F2 & F3 & F4). exists X2, st2, fv. auto 6 using post_none.
Qed.
Lemma sim_ret {A B} (P : list nat -> list cell -> A -> B -> Prop) skip X s st a b : bounded X (cs_cells s) -> same_state X s st -> P X (cs_cells s) a b -> sim P skip X (cs_cells s) (cret a s) (ret b st).
Proof. intros Bd S0 H _. exists X, b, st. split; [reflexivity|]. split; [apply post_none; now apply post_refl|]. auto. Qed.
Lemma sim_err {A B} (P : list nat -> list cell -> A -> B -> Prop) skip X s st : bounded X (cs_cells s) -> same_state X s st -> sim P skip X (cs_cells s) (cerr s) (err st).
Proof. intros Bd S0 _. exists X, st. split; [reflexivity|]. split; [apply post_none; now apply post_refl|]. auto. Qed.

(** ** environments *)
Lemma F2_nth {A B} (R : A -> B -> Prop) d d' i : forall l m, Forall2 R l m -> R d d' -> R (nth i l d) (nth i m d').
Proof. induction i as [|i IH]; intros l m F D; destruct F; cbn; auto. Qed.
Lemma F2_upd {A B} (R : A -> B -> Prop) x y : forall l m i, Forall2 R l m -> R x y -> Forall2 R (upd l i x) (upd m i y).
Proof. intros l m i F. revert i. induction F; intros [|i] D; cbn; constructor; auto. Qed.
Definition orel (X : list nat) (h : list cell) (o : option cval) (o' : option val) : Prop :=
  match o, o' with Some a, Some b => rep X h a b | None, None => True | _, _ => False end.
Definition prel (X : list nat) (h : list cell) (o : option (nat * cval)) (o' : option (nat * val)) : Prop :=
  match o, o' with Some (i, a), Some (j, b) => i = j /\ rep X h a b | None, None => True | _, _ => False end.
Section Env.
Variables (X : list nat) (s : cstate) (st : state).
Hypothesis SS : same_state X s st.
Let h := cs_cells s.
Lemma r_assoc x : forall l m, same_alist X h l m -> orel X h (c_assoc x l) (assoc x m).
Proof. intros l m F. induction F as [|[k v] [k' w] l m [E R] F IH]; [exact Logic.I|]. cbn [fst snd] in *. subst k'. cbn [c_assoc assoc]. destruct (beq k x); [exact R|exact IH]. Qed.
Lemma r_assoc_set x v w : rep X h v w -> forall l m, same_alist X h l m ->
  match c_assoc_set x v l, assoc_set x w m with Some l', Some m' => same_alist X h l' m' | None, None => True | _, _ => False end.
Proof.
  intros R l m F. induction F as [|[k a] [k' b] l m [E R'] F IH]; [exact Logic.I|]. cbn [fst snd] in *. subst k'. cbn [c_assoc_set assoc_set].
  destruct (beq k x); [constructor; auto|]. destruct (c_assoc_set x v l), (assoc_set x w m); auto. constructor; auto.
Qed.
Lemma r_put x v w l m : rep X h v w -> same_alist X h l m -> same_alist X h (c_put x v l) (put x w m).
Proof. intros R F. unfold c_put, put. pose proof (r_assoc_set x v w R l m F) as H. destruct (c_assoc_set x v l), (assoc_set x w m); auto; try easy. constructor; auto. Qed.
Lemma r_frame a : same_alist X h (c_frame s a) (frame_at st a).
Proof. unfold c_frame, frame_at. apply F2_nth; [apply SS|constructor]. Qed.
Lemma r_mod m : same_module X h (c_mod s m) (mod_at st m).
Proof. unfold c_mod, mod_at. apply F2_nth; [apply SS|]. split; [constructor|reflexivity]. Qed.
Lemma r_chain x c : prel X h (c_chain s c x) (search_chain st c x).
Proof. induction c as [|a c IH]; [exact Logic.I|]. cbn [c_chain search_chain]. pose proof (r_assoc x _ _ (r_frame a)) as H. destruct (c_assoc x (c_frame s a)), (assoc x (frame_at st a)); cbn in *; auto; easy. Qed.
Lemma r_entry e x b : prel X h (c_entry s e x b) (search_entry st e x b).
Proof. apply r_chain. Qed.
Lemma r_exist e x : orel X h (c_exist s e x) (env_exist st e x).
Proof. unfold c_exist, env_exist. pose proof (r_entry e x false) as H. destruct (c_entry s e x false) as [[]|], (search_entry st e x false) as [[]|]; cbn in *; try easy. Qed.
Lemma r_ob m x : orel X h (c_ob s m x) (ob_lookup st m x).
Proof. apply r_assoc, r_mod. Qed.
Lemma r_uses x l : prel X h (c_uses s l x) (uses_lookup st l x).
Proof. induction l as [|a c IH]; [exact Logic.I|]. cbn [c_uses uses_lookup]. pose proof (r_ob a x) as H. destruct (c_ob s a x), (ob_lookup st a x); cbn in *; auto; easy. Qed.
Lemma r_find m x : prel X h (c_find s m x) (mod_find st m x).
Proof.
  unfold c_find, mod_find. pose proof (r_ob m x) as H. destruct (c_ob s m x), (ob_lookup st m x); cbn in H; try easy. rewrite (proj2 (r_mod m)).
  pose proof (r_uses x (m_uses (mod_at st m))) as U. destruct (c_uses s _ x) as [[]|], (uses_lookup st _ x) as [[]|]; cbn in U; try easy.
  destruct (Nat.eqb m root); [exact Logic.I|]. pose proof (r_ob root x) as O. destruct (c_ob s root x), (ob_lookup st root x); cbn in *; auto; easy.
Qed.
Lemma r_modsearch m x : orel X h (c_modsearch s m x) (mod_search st m x).
Proof. unfold c_modsearch, mod_search. pose proof (r_find m x) as H. destruct (c_find s m x) as [[]|], (mod_find st m x) as [[]|]; cbn in *; try easy. Qed.
Lemma r_search e x : orel X h (c_search s e x) (env_search st e x).
Proof.
  unfold c_search, env_search. pose proof (r_exist e x) as H. destruct (c_exist s e x), (env_exist st e x); cbn in H; try easy.
  pose proof (r_entry e x true) as H1. destruct (c_entry s e x true) as [[]|], (search_entry st e x true) as [[]|]; cbn in H1; try easy.
  rewrite (same_cur _ _ _ SS). pose proof (r_modsearch (s_cur st) x) as H2. pose proof (r_assoc x _ _ (r_frame 0)) as H3. destruct (e_mod e) as [m|].
  - pose proof (r_modsearch m x) as H4. destruct (c_modsearch s m x), (mod_search st m x); cbn in H4; try easy.
    destruct (c_modsearch s (s_cur st) x), (mod_search st (s_cur st) x); cbn in H2; try easy.
  - destruct (c_modsearch s (s_cur st) x), (mod_search st (s_cur st) x); cbn in H2; try easy.
Qed.
Lemma no_macro x v : rep X h x v -> is_macro v = false.
Proof. intro R. inversion R; reflexivity. Qed.
Lemma r_head e x : orel X h (c_head s e x) (head_value st e x).
Proof.
  unfold c_head, head_value. pose proof (r_exist e x) as H. destruct (c_exist s e x), (env_exist st e x); cbn in H; try easy.
  rewrite (same_cur _ _ _ SS). pose proof (r_assoc x _ _ (r_frame 0)) as H3.
  assert (T : match assoc x (frame_at st 0) with Some v => if is_macro v then Some v else None | None => None end = None).
  { destruct (assoc x (frame_at st 0)); [|reflexivity]. destruct (c_assoc x (c_frame s 0)); [|easy]. now rewrite (no_macro _ _ H3). }
  rewrite T. destruct (Nat.eqb (s_cur st) root); [exact Logic.I|].
  pose proof (r_ob (s_cur st) x) as O. destruct (c_ob s (s_cur st) x), (ob_lookup st (s_cur st) x); cbn in O; try easy.
  rewrite (proj2 (r_mod (s_cur st))). pose proof (r_uses x (m_uses (mod_at st (s_cur st)))) as U.
  destruct (c_uses s _ x) as [[]|], (uses_lookup st _ x) as [[]|]; cbn in *; try easy.
Qed.
Lemma s_set_frame a l m : same_alist X h l m -> same_state X (c_set_frame s a l) (set_frame st a m).
Proof. intro F. destruct SS as [A B C D G]. split; cbn; auto. now apply F2_upd. Qed.
Lemma s_insert e x v w : rep X h v w -> same_state X (c_insert s e x v) (env_insert st e x w false).
Proof.
  intro R. unfold c_insert, env_insert. pose proof (r_entry e x false) as H. destruct (c_entry s e x false) as [[i a]|], (search_entry st e x false) as [[j b]|]; cbn in H; try easy.
  - destruct H as [-> H]. apply s_set_frame. apply r_put; [exact R|apply r_frame].
  - destruct (e_chain e); [exact SS|]. apply s_set_frame. constructor; [split; [reflexivity|exact R]|apply r_frame].
Qed.
Lemma s_insert_up e x v w : rep X h v w -> same_state X (c_insert_up s e x v) (env_insert st e x w true).
Proof.
  intro R. unfold c_insert_up, env_insert. pose proof (r_entry e x true) as H. destruct (c_entry s e x true) as [[i a]|], (search_entry st e x true) as [[j b]|]; cbn in H; try easy.
  - destruct H as [-> H]. apply s_set_frame. apply r_put; [exact R|apply r_frame].
  - destruct (e_chain e); [exact SS|]. apply s_set_frame. constructor; [split; [reflexivity|exact R]|apply r_frame].
Qed.
Lemma s_ob_set m x v w : rep X h v w -> same_state X (c_ob_set s m x v) (ob_set st m x w).
Proof.
  intro R. destruct (r_mod m) as [M U]. destruct SS as [A B C D G]. split; cbn; auto. apply F2_upd; [exact B|]. split; [apply r_put; [exact R|exact M]|exact U].
Qed.
Lemma s_set e x v w : rep X h v w -> same_state X (c_set s e x v) (do_set st e x w).
Proof.
  intro R. unfold c_set, do_set. pose proof (r_entry e x true) as H. destruct (c_entry s e x true) as [[i a]|], (search_entry st e x true) as [[j b]|]; cbn in H; try easy.
  - destruct H as [-> H]. apply s_set_frame. apply r_put; [exact R|apply r_frame].
  - rewrite (same_cur _ _ _ SS). pose proof (r_find (s_cur st) x) as F. destruct (c_find s (s_cur st) x) as [[i a]|], (mod_find st (s_cur st) x) as [[j b]|]; cbn in F; try easy.
    + destruct F as [-> F]. now apply s_ob_set.
    + now apply s_insert.
Qed.
Lemma s_define e x v w : rep X h v w -> same_state X (c_define_var s e x v) (do_define_var st e x w).
Proof.
  intro R. unfold c_define_var, do_define_var.
  assert (G : same_state X (match c_assoc x (c_frame s 0) with Some _ => c_set_frame s 0 (c_put x v (c_frame s 0)) | None => c_ob_set s (cs_cur s) x v end)
                (match assoc x (frame_at st 0) with Some _ => set_frame st 0 (put x w (frame_at st 0)) | None => ob_set st (s_cur st) x w end)).
  { pose proof (r_assoc x _ _ (r_frame 0)) as H. rewrite (same_cur _ _ _ SS). destruct (c_assoc x (c_frame s 0)), (assoc x (frame_at st 0)); cbn in H; try easy.
    - apply s_set_frame. apply r_put; [exact R|apply r_frame].
    - now apply s_ob_set. }
  destruct (e_chain e) as [|a [|b r]]; [exact G|exact G|]. destruct (e_mod e); [now apply s_ob_set|now apply s_insert].
Qed.
Lemma s_define_proc x v w : rep X h v w -> same_state X (c_define_proc s x v) (do_define_proc st x w).
Proof. intro R. unfold c_define_proc, do_define_proc. rewrite (same_cur _ _ _ SS). now apply s_ob_set. Qed.
Lemma r_truthy v w : rep X h v w -> c_truthy v = truthy w.
Proof. intro R. inversion R; reflexivity. Qed.
End Env.
Lemma cells_insert s e x v : cs_cells (c_insert s e x v) = cs_cells s.
Proof. unfold c_insert. destruct (c_entry s e x false) as [[]|]; [reflexivity|]. destruct (e_chain e); reflexivity. Qed.
Lemma cells_insert_up s e x v : cs_cells (c_insert_up s e x v) = cs_cells s.
Proof. unfold c_insert_up. destruct (c_entry s e x true) as [[]|]; [reflexivity|]. destruct (e_chain e); reflexivity. Qed.
Lemma cells_set s e x v : cs_cells (c_set s e x v) = cs_cells s.
Proof. unfold c_set. destruct (c_entry s e x true) as [[]|]; [reflexivity|]. destruct (c_find s (cs_cur s) x) as [[]|]; [reflexivity|]. apply cells_insert. Qed.
Lemma cells_define s e x v : cs_cells (c_define_var s e x v) = cs_cells s.
Proof. unfold c_define_var. destruct (e_chain e) as [|a [|b r]]; try (destruct (c_assoc x (c_frame s 0)); reflexivity). destruct (e_mod e); [reflexivity|apply cells_insert]. Qed.
