(** The machine of MachModel follows the natural semantics of MachNat. *)
From Coq Require Import String List ZArith Bool Lia.
From Verif Require Import MachModel MachSpec MachProofs MachProofs2 MachNat.
Import ListNotations.
Local Open Scope string_scope.
Local Open Scope list_scope.
Local Open Scope nat_scope.

(** ** memory *)
Definition kept (ea ei : option nat) (h h' : store) : Prop :=
  length (h_args h) <= length (h_args h') /\ length (h_iters h) <= length (h_iters h') /\
  (forall i x, Some i <> ea -> nth_error (h_args h) i = Some x -> nth_error (h_args h') i = Some x) /\
  (forall i x, Some i <> ei -> nth_error (h_iters h) i = Some x -> nth_error (h_iters h') i = Some x).
Lemma kept_same ea ei h h' : h_args h' = h_args h -> h_iters h' = h_iters h -> kept ea ei h h'.
Proof. intros A B. unfold kept. rewrite A, B. repeat split; auto. Qed.
Lemma kept_refl ea ei h : kept ea ei h h.
Proof. apply kept_same; reflexivity. Qed.
Lemma kept_trans ea ei h1 h2 h3 : kept ea ei h1 h2 -> kept ea ei h2 h3 -> kept ea ei h1 h3.
Proof. intros (A & B & C & D) (A2 & B2 & C2 & D2). repeat split; try lia; intros; eauto. Qed.
Lemma kept_weak ea ei h h' : kept None None h h' -> kept ea ei h h'.
Proof. intros (A & B & C & D). repeat split; auto; intros i x _ H; [apply C|apply D]; auto; discriminate. Qed.
#[local] Hint Resolve kept_refl kept_weak kept_trans : kept.

Lemma forall2_nth {A B} (P : A -> B -> Prop) l l' : Forall2 P l l' -> forall i,
  match nth_error l i, nth_error l' i with Some a, Some b => P a b | None, None => True | _, _ => False end.
Proof. induction 1 as [|x y l l' H F IH]; intros [|i]; cbn; auto. apply IH. Qed.
Lemma set_nth_len {A} (l : list A) g : forall i, length (set_nth l i g) = length l.
Proof. induction l as [|y r IH]; intros [|i]; cbn; auto. Qed.
Lemma nth_set {A} (l : list A) g : forall i j, nth_error (set_nth l i g) j = if Nat.eqb j i then option_map g (nth_error l j) else nth_error l j.
Proof. induction l as [|y r IH]; intros [|i] [|j]; cbn; auto; try (now destruct (Nat.eqb j i)). Qed.
Lemma set_nth_upd {A} (l : list A) g : forall i, set_nth l i g = match nth_error l i with Some x => upd l i (g x) | None => l end.
Proof.
  induction l as [|y r IH]; intros [|i]; cbn; auto. rewrite IH. destruct (nth_error r i); reflexivity.
Qed.

(** ** variables *)
Lemma owner_bound h m e x : agree h m -> forall n o, env_owner n (h_envs h) e x = Some o -> exists v, bound_at (frames m) e x o v /\ binding h o x = Some v.
Proof.
  intros (_ & F & _) n. revert e. induction n as [|n IH]; intros e o H; [discriminate H|]. cbn [env_owner] in H.
  pose proof (forall2_nth _ _ _ F e) as N. destruct (nth_error (h_envs h) e) as [f|] eqn:E; [|discriminate H].
  destruct (nth_error (frames m) e) as [[g up]|] eqn:E2; [|destruct N]. destruct N as (N1 & N2). cbn in N1, N2.
  destruct (assq x (e_binds f)) as [v|] eqn:A.
  - inversion H; subst o. exists v. split; [apply ba_here with g up; congruence|]. unfold binding. rewrite E. exact A.
  - destruct (e_up f) as [u|] eqn:U; [|discriminate H]. destruct (IH u o H) as (v & B & C). exists v. split; [|exact C].
    apply ba_outer with g u; congruence.
Qed.
Lemma bound_owner h m e x o v : agree h m -> bound_at (frames m) e x o v -> forall n, e < n -> env_owner n (h_envs h) e x = Some o /\ binding h o x = Some v.
Proof.
  intros (_ & F & Old). induction 1 as [e x f up v N A|e x f u o v N A B IH]; intros n L; (destruct n as [|n]; [lia|]); cbn [env_owner];
    pose proof (forall2_nth _ _ _ F e) as Q; rewrite N in Q; destruct (nth_error (h_envs h) e) as [g|] eqn:E; try (now destruct Q); destruct Q as (Q1 & Q2); cbn in Q1, Q2;
    rewrite Q1, A.
  - split; [reflexivity|]. unfold binding. rewrite E, Q1. exact A.
  - rewrite Q2. apply IH. apply Old in N. lia.
Qed.
Lemma bound_valid fr e x o v : bound_at fr e x o v -> e < length fr.
Proof. intros [? ? ? ? ? N _|? ? ? ? ? ? N _ _]; apply nth_error_Some; congruence. Qed.
Lemma env_len h m : agree h m -> length (h_envs h) = length (frames m).
Proof. intros (_ & F & _). clear -F. induction F; cbn; auto. Qed.
Lemma get_bound h m e x o v : agree h m -> bound_at (frames m) e x o v -> env_get h e x = Some v.
Proof.
  intros A B. pose proof (bound_valid _ _ _ _ _ B) as L. rewrite <- (env_len _ _ A) in L. unfold env_get, owner.
  destruct (bound_owner _ _ _ _ _ _ A B (S (length (h_envs h)))) as (E1 & E2); [lia|]. rewrite E1. exact E2.
Qed.
Lemma get_unbound h m e x : agree h m -> unbound (frames m) e x -> env_get h e x = None /\ owner h e x = None.
Proof.
  intros A U. unfold env_get, owner. destruct (env_owner (S (length (h_envs h))) (h_envs h) e x) as [o|] eqn:E; [|auto].
  destruct (owner_bound _ _ _ _ A _ _ E) as (v & B & _). destruct (U _ _ B).
Qed.
Lemma assq_bind x v l y : assq y (bind_in x v l) = if String.eqb y x then Some v else assq y l.
Proof.
  induction l as [|[z w] r IH]; cbn [bind_in assq].
  - reflexivity.
  - destruct (String.eqb_spec x z) as [->|N]; cbn [assq].
    + destruct (String.eqb y z); reflexivity.
    + rewrite IH. destruct (String.eqb_spec y z) as [->|]; [|reflexivity]. destruct (String.eqb_spec z x); congruence.
Qed.
Lemma put_agree h m e x v : agree h m -> agree (env_put e x v h) (bind_var e x v m) /\ h_args (env_put e x v h) = h_args h /\ h_iters (env_put e x v h) = h_iters h.
Proof.
  intros (C & F & Old). unfold env_put, bind_var. pose proof (forall2_nth _ _ _ F e) as Q.
  assert (G : forall i (f : vars) u, nth_error (set_nth (frames m) e (fun f => (with_var x v (fst f), snd f))) i = Some (f, Some u) -> u < i).
  { intros i f u H. rewrite nth_set in H. destruct (Nat.eqb i e); [|eapply Old; eauto].
    destruct (nth_error (frames m) i) as [[g up]|] eqn:E; [|discriminate H]. cbn in H. inversion H; subst. eapply Old; eauto. }
  destruct (nth_error (h_envs h) e) as [f|] eqn:E; [|].
  - cbn [h_args h_iters]. split; [|auto]. split; [exact C|]. split; [|exact G]. cbn [h_envs frames]. clear -F Q E.
    revert e E Q. induction F as [|a b l l' H F IH]; intros [|e] E Q; cbn in *; try discriminate; constructor; auto.
    inversion E; subst. destruct H as (H1 & H2). split; [|exact H2]. intro y. cbn. rewrite assq_bind. unfold with_var. destruct (String.eqb y x); auto.
  - destruct (nth_error (frames m) e) eqn:E2; [destruct Q|]. split; [|auto]. rewrite set_nth_upd, E2. destruct m; split; [exact C|split; [exact F|exact Old]].
Qed.
Lemma set_agree h m e x v o w : agree h m -> bound_at (frames m) e x o w -> env_set e x v h = env_put o x v h.
Proof.
  intros A B. unfold env_set, owner. pose proof (bound_valid _ _ _ _ _ B) as L. rewrite <- (env_len _ _ A) in L.
  destruct (bound_owner _ _ _ _ _ _ A B (S (length (h_envs h)))) as (-> & _); [lia|reflexivity].
Qed.
Lemma env_agree h m pe : agree h m -> pe < length (frames m) -> exists h1, alloc_env (Some pe) h = (length (frames m), h1) /\ agree h1 (new_frame pe m) /\
  h_args h1 = h_args h /\ h_iters h1 = h_iters h.
Proof.
  intros A L. unfold alloc_env. rewrite (env_len _ _ A). eexists. split; [reflexivity|]. split; [|auto]. destruct A as (C & F & Old). split; [exact C|]. cbn [new_frame frames h_envs].
  split; [apply Forall2_app; [exact F|]; constructor; [|constructor]; split; [intro x; reflexivity|reflexivity]|].
  intros i f u H. destruct (Nat.lt_ge_cases i (length (frames m))) as [Q|Q].
  - rewrite nth_error_app1 in H by exact Q. eauto.
  - rewrite nth_error_app2 in H by exact Q. destruct (i - length (frames m)) as [|j] eqn:J; cbn in H; [|destruct j; discriminate H].
    inversion H; subst. lia.
Qed.

(** ** lists *)
Definition head_of (l : list nat) : option nat := match l with [] => None | a :: _ => Some a end.
Definition last_of (l : list nat) : option nat := match rev l with [] => None | a :: _ => Some a end.
Lemma last_snoc l n : last_of (l ++ [n]) = Some n.
Proof. unfold last_of. rewrite rev_app_distr. reflexivity. Qed.
Lemma head_snoc l n : head_of (l ++ [n]) = match last_of l with None => Some n | Some _ => head_of l end.
Proof. destruct l as [|a r]; [reflexivity|]. unfold last_of. cbn [rev]. destruct (rev r ++ [a]) eqn:E; [destruct (rev r); discriminate E|]. reflexivity. Qed.
Lemma as_list_of l : as_list (head_of l) = list_of l.
Proof. destruct l; reflexivity. Qed.
Lemma upd_app {A} (l r : list A) i x : i < length l -> upd (l ++ r) i x = upd l i x ++ r.
Proof. revert i. induction l as [|y l IH]; intros i L; cbn in *; [lia|]. destruct i; [reflexivity|]. cbn. rewrite IH by lia. reflexivity. Qed.
Lemma grow_agree h m l v l1 c1 : agree h m -> grow l v (cells m) = (l1, c1) -> Forall (fun a => a < length (cells m)) l ->
  exists n h1, alloc_cell v None false h = (n, h1) /\ l1 = l ++ [n] /\ agree (link_cell (last_of l) n h1) (mkMem c1 (frames m)) /\
    h_args (link_cell (last_of l) n h1) = h_args h /\ h_iters (link_cell (last_of l) n h1) = h_iters h /\ length c1 = S (length (cells m)) /\ n = length (cells m).
Proof.
  intros (C & F & Old) G L. unfold grow in G. inversion G; subst l1 c1. unfold alloc_cell. rewrite C. eexists. eexists. split; [reflexivity|]. split; [reflexivity|].
  unfold last_of, link_cell. destruct (rev l) as [|t r] eqn:R.
  - cbn [h_args h_iters]. split; [split; [reflexivity|split; [exact F|exact Old]]|]. split; [reflexivity|]. split; [reflexivity|]. split; [rewrite app_length; cbn; lia|reflexivity].
  - assert (T : t < length (cells m)). { rewrite Forall_forall in L. apply L. rewrite <- (rev_involutive l), R. cbn. apply in_or_app. right. now left. }
    unfold get_cell. cbn [h_cells]. rewrite nth_error_app1 by exact T. destruct (nth_error (cells m) t) as [x|] eqn:E; [|apply nth_error_None in E; lia].
    unfold set_cell. cbn [h_cells h_args h_iters h_envs]. split; [split; [|split; [exact F|exact Old]]|].
    + cbn [h_cells cells]. rewrite upd_app by exact T. rewrite set_nth_upd, E. reflexivity.
    + split; [reflexivity|]. split; [reflexivity|]. split; [rewrite app_length, set_nth_len; cbn; lia|reflexivity].
Qed.
Lemma new_list_agree vs : forall h m, agree h m -> exists h1, alloc_list vs h = (fst (new_list vs (cells m)), h1) /\ agree h1 (mkMem (snd (new_list vs (cells m))) (frames m)) /\
  h_args h1 = h_args h /\ h_iters h1 = h_iters h /\ h_envs h1 = h_envs h.
Proof.
  induction vs as [|v r IH]; intros h m A; cbn [alloc_list new_list].
  - exists h. destruct m. auto.
  - destruct (IH h m A) as (h1 & E & A1 & B1 & B2 & B3). rewrite E. destruct (new_list r (cells m)) as [t c1] eqn:N. cbn [fst snd] in *.
    unfold alloc_cell. destruct A1 as (C & F & Old). cbn [cells frames] in *. rewrite C. eexists. split; [reflexivity|]. cbn [h_args h_iters h_envs]. split; [|auto].
    split; [cbn [h_cells cells]; destruct t; reflexivity|]. split; [exact F|exact Old].
Qed.
Lemma tail_agree v : forall h m, agree h m -> exists h1, cdr_cells v h = (fst (tail_of v (cells m)), h1) /\ agree h1 (mkMem (snd (tail_of v (cells m))) (frames m)) /\
  h_args h1 = h_args h /\ h_iters h1 = h_iters h.
Proof.
  intros h m A. destruct A as (C & F & Old).
  assert (K : agree h (mkMem (cells m) (frames m))) by (split; [exact C|split; [exact F|exact Old]]).
  unfold cdr_cells, tail_of, alloc_cell. rewrite C.
  destruct v as [[| | | |]| | | |]; cbn [fst snd]; eexists; (split; [reflexivity|]); (split; [|auto]); try exact K;
    (split; [reflexivity|split; [exact F|exact Old]]).
Qed.
Lemma ints_all vs : ints vs = all_ints vs.
Proof. induction vs as [|v r IH]; [reflexivity|]. unfold ints in *. cbn [fold_right all_ints]. rewrite IH. destruct v as [[| | | |]| | | |]; try reflexivity; destruct (all_ints r); reflexivity. Qed.
Lemma sum_fold l : fold_right Z.add 0%Z l = sum l.
Proof. induction l as [|z r IH]; [reflexivity|]. cbn. now rewrite IH. Qed.
Lemma prim_agree p vs h m : agree h m -> p <> PCatch -> p <> PThrow ->
  match primitive p vs (cells m) with
  | Some (v, c) => exists h1, simple_prim p vs h = Some (v, h1) /\ agree h1 (mkMem c (frames m)) /\ h_args h1 = h_args h /\ h_iters h1 = h_iters h
  | None => simple_prim p vs h = None
  end.
Proof.
  intros A N1 N2. pose proof A as (C & F & Old).
  assert (K : agree h (mkMem (cells m) (frames m))) by (split; [exact C|split; [exact F|exact Old]]).
  destruct p; try congruence; unfold simple_prim, primitive, get_cell, do_cdr.
  - destruct (new_list_agree vs h m A) as (h1 & E & A1 & B1 & B2 & _). rewrite E. destruct (new_list vs (cells m)); cbn [fst snd] in *. exists h1. auto.
  - destruct vs as [|a [|b [|? ?]]]; try reflexivity. destruct (tail_agree b h m A) as (h1 & E & (C1 & F1 & O1) & B1 & B2). rewrite E. destruct (tail_of b (cells m)) as [n c1]; cbn [fst snd cells frames] in *.
    unfold alloc_cell. rewrite C1. eexists. split; [reflexivity|]. split; [split; [reflexivity|split; [exact F1|exact O1]]|auto].
  - destruct vs as [|[] [|? ?]]; try reflexivity. rewrite C. destruct (nth_error (cells m) a); [|reflexivity]. exists h. auto.
  - destruct vs as [|[] [|? ?]]; try reflexivity. rewrite C. destruct (nth_error (cells m) a) as [x|]; [|reflexivity]. exists h.
    split; [|auto]. destruct (c_next x) as [b|]; [|reflexivity]. unfold get_cell. rewrite C. reflexivity.
  - destruct vs as [|[] [|? [|? ?]]]; try reflexivity. rewrite C. destruct (nth_error (cells m) a) as [x|] eqn:E; [|reflexivity]. eexists. split; [reflexivity|].
    split; [|auto]. split; [cbn [set_cell h_cells cells]; rewrite C, set_nth_upd, E; reflexivity|split; [exact F|exact Old]].
  - destruct vs as [|[] [|v [|? ?]]]; try reflexivity. destruct (tail_agree v h m A) as (h1 & E & (C1 & F1 & O1) & B1 & B2). rewrite E. destruct (tail_of v (cells m)) as [n c1]; cbn [fst snd cells frames] in *.
    rewrite C1. destruct (nth_error c1 a) as [x|] eqn:E2; [|reflexivity]. eexists. split; [reflexivity|].
    split; [|auto]. split; [cbn [set_cell h_cells cells]; rewrite C1, set_nth_upd, E2; reflexivity|split; [exact F1|exact O1]].
  - pose proof (ints_all vs) as Q. destruct (all_ints vs) as [l|]; rewrite Q; [|reflexivity]. exists h. rewrite sum_fold. auto.
  - pose proof (ints_all vs) as Q. destruct (all_ints vs) as [[|a [|b [|? ?]]]|]; rewrite Q; try reflexivity. exists h. auto.
  - pose proof (ints_all vs) as Q. destruct (all_ints vs) as [[|a [|b [|? ?]]]|]; rewrite Q; try reflexivity. exists h. auto.
  - destruct vs as [|[[| | | |]| | | |] [|? ?]]; try reflexivity; exists h; auto.
Qed.
Lemma bind_agree fe ex ps r vs m o : bind_all fe ex ps r vs m o -> forall h, agree h m ->
  match o with
  | Some m1 => exists h1, bind_values fe ps r vs ex h = Some h1 /\ agree h1 m1 /\ h_args h1 = h_args h /\ h_iters h1 = h_iters h
  | None => bind_values fe ps r vs ex h = None
  end.
Proof.
  induction 1 as [m|v vs m|y vs m l c N|p ps r v vs m o B IH|p ps m|p ps y m X|p ps y m X]; intros h A; cbn [bind_values].
  - exists h. auto.
  - reflexivity.
  - destruct (new_list_agree vs h m A) as (h1 & E & A1 & B1 & B2 & _). rewrite E, N in *. cbn [fst snd] in *.
    destruct (put_agree h1 _ fe y l A1) as (A2 & P1 & P2). eexists. split; [reflexivity|]. split; [exact A2|]. split; congruence.
  - destruct (put_agree h m fe p v A) as (A2 & P1 & P2). specialize (IH _ A2). destruct o as [m1|]; [|exact IH].
    destruct IH as (h1 & E & A3 & Q1 & Q2). exists h1. split; [exact E|]. split; [exact A3|]. split; congruence.
  - destruct ex; reflexivity.
  - rewrite X. reflexivity.
  - rewrite X. exists h. auto.
Qed.

(** ** argument lists *)
Inductive args_are (l : list (mv * option nat)) : option nat -> option nat -> list mv -> Prop :=
| aa_nil : args_are l None None []
| aa_one : forall a v, nth_error l a = Some (v, None) -> args_are l (Some a) (Some a) [v]
| aa_cons : forall a b t v vs, nth_error l a = Some (v, Some b) -> a < b -> a < t -> args_are l (Some b) (Some t) vs -> args_are l (Some a) (Some t) (v :: vs).
Lemma aa_walk l hd tl vs : args_are l hd tl vs -> forall n, (forall a, hd = Some a -> length l <= n + a) -> walk_args n l hd = vs.
Proof.
  induction 1 as [|a v N|a b t v vs N L1 L2 A IH]; intros n G.
  - destruct n; reflexivity.
  - assert (a < length l) by (apply nth_error_Some; congruence). specialize (G a eq_refl). destruct n as [|n]; [lia|]. cbn [walk_args]. rewrite N. destruct n; reflexivity.
  - assert (a < length l) by (apply nth_error_Some; congruence). specialize (G a eq_refl). destruct n as [|n]; [lia|]. cbn [walk_args]. rewrite N. f_equal. apply IH. intros ? [= <-]. lia.
Qed.
Lemma aa_values h hd tl vs : args_are (h_args h) hd tl vs -> arg_values h hd = vs.
Proof. intro A. unfold arg_values. eapply aa_walk; eauto. intros; lia. Qed.
Lemma aa_kept l l' hd tl vs : (forall i x, nth_error l i = Some x -> nth_error l' i = Some x) -> args_are l hd tl vs -> args_are l' hd tl vs.
Proof. intros K. induction 1; [constructor|constructor; auto|eapply aa_cons; eauto]. Qed.
Lemma aa_tail l hd t vs : args_are l hd (Some t) vs -> exists v, nth_error l t = Some (v, None).
Proof. intro A. remember (Some t) as tl eqn:E. revert E. induction A; intro Q; inversion Q; subst; eauto. Qed.
Lemma aa_snoc l hd tl vs v : args_are l hd tl vs ->
  args_are (match tl with None => l ++ [(v, None)] | Some t => match nth_error (l ++ [(v, None)]) t with Some (w, _) => upd (l ++ [(v, None)]) t (w, Some (length l)) | None => l ++ [(v, None)] end end)
    (match tl with None => Some (length l) | Some _ => hd end) (Some (length l)) (vs ++ [v]).
Proof.
  intros A. assert (X : nth_error (l ++ [(v, None)]) (length l) = Some (v, None)) by (rewrite nth_error_app2, Nat.sub_diag by lia; reflexivity).
  destruct tl as [t|].
  2:{ inversion A; subst. cbn. now constructor. }
  destruct (aa_tail _ _ _ _ A) as (w & T). assert (LT : t < length l) by (apply nth_error_Some; congruence).
  rewrite nth_error_app1 by exact LT. rewrite T. remember (upd (l ++ [(v, None)]) t (w, Some (length l))) as l' eqn:El.
  assert (N1 : nth_error l' t = Some (w, Some (length l))). { subst l'. rewrite nth_upd, Nat.eqb_refl, nth_error_app1 by exact LT. rewrite T. reflexivity. }
  assert (N2 : forall i x, i <> t -> nth_error l i = Some x -> nth_error l' i = Some x).
  { intros i x Ni H. subst l'. rewrite nth_upd. destruct (Nat.eqb_spec i t); [congruence|]. rewrite nth_error_app1; [exact H|]. apply nth_error_Some. congruence. }
  assert (N3 : nth_error l' (length l) = Some (v, None)). { subst l'. rewrite nth_upd. destruct (Nat.eqb_spec (length l) t); [lia|]. exact X. }
  clear El X. remember (Some t) as tl eqn:E. revert E. induction A as [|a u N|a b t0 u us N L1 L2 A IH]; intro Q; inversion Q; subst.
  - cbn [app]. rewrite T in N. inversion N; subst. eapply aa_cons; [exact N1|lia|lia|]. apply aa_one. exact N3.
  - cbn [app]. eapply aa_cons; [apply N2; [lia|exact N]|exact L1|lia|]. apply IH; auto.
Qed.
