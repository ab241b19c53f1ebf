(** Invariants of the machine: what a value points to is not under construction. *)
From Coq Require Import String List ZArith Bool Lia.
From Verif Require Import MachModel MachSpec MachProofs.
Import ListNotations.
Local Open Scope string_scope.
Local Open Scope list_scope.
Local Open Scope nat_scope.

(** ** lists *)
Lemma upd_len {A} (l : list A) : forall i x, length (upd l i x) = length l.
Proof. induction l; destruct i; cbn; auto. Qed.
Lemma nth_upd {A} (l : list A) : forall i j x, nth_error (upd l i x) j = if Nat.eqb j i then match nth_error l i with Some _ => Some x | None => None end else nth_error l j.
Proof. induction l as [|y l IH]; destruct i, j; cbn; auto. destruct (Nat.eqb j i); auto. Qed.
Lemma nth_snoc {A} (l : list A) x j : nth_error (l ++ [x]) j = if Nat.eqb j (length l) then Some x else nth_error l j.
Proof.
  destruct (Nat.eqb_spec j (length l)) as [->|N]; [rewrite nth_error_app2, Nat.sub_diag; auto|].
  destruct (Nat.lt_ge_cases j (length l)); [now rewrite nth_error_app1|].
  transitivity (@None A); [|symmetry]; apply nth_error_None; rewrite ?app_length; cbn; lia.
Qed.
Lemma nth_lt {A} (l : list A) i x : nth_error l i = Some x -> i < length l.
Proof. intro H. apply nth_error_Some. congruence. Qed.

(** ** worlds: how many cells and environments there are, and which are under construction *)
Record world := mkW { wn : nat; oc : list nat; en : nat; oe : list nat }.
Definition aok (W : world) (a : nat) : Prop := a < wn W /\ ~ In a (oc W).
Definition eok (W : world) (e : nat) : Prop := e < en W /\ ~ In e (oe W).
Definition pok (W : world) (p : option nat) : Prop := match p with Some a => aok W a | None => True end.
Definition vok (W : world) (v : mv) : Prop :=
  match v with MList a => aok W a | MProc _ _ _ e => eok W e | _ => True end.
Definition fok (W : world) (f : frame) : Prop :=
  match f with
  | FSeq e _ | FIf e _ _ | FSet e _ | FDef e _ | FOp e _ | FArgs e _ _ _ _ | FCallCC e | FWind1 e _ _ | FMap1 e _ | FEach1 e _ => eok W e
  | FBind ce _ _ _ _ _ _ | FRest ce _ _ _ _ _ _ => eok W ce
  | FContArg _ => True
  | FWind2 e i _ => eok W e /\ vok W i
  | FWind3 e i t => eok W e /\ vok W i /\ vok W t
  | FWindIn e i t o => eok W e /\ vok W i /\ vok W t /\ vok W o
  | FWindThunk e o _ => eok W e /\ vok W o
  | FWindOut v => vok W v
  | FDynOut _ v _ _ | FDynIn _ v _ _ => vok W v
  | FCatch _ t h _ _ => vok W t /\ vok W h
  | FMap2 e f | FMap3 e f _ _ _ | FEach2 e f => eok W e /\ vok W f
  | FEach3 e f p => eok W e /\ vok W f /\ pok W p
  end.
Definition cok (W : world) (c : ctrl) : Prop :=
  match c with
  | CEval e _ | CBody e _ => eok W e
  | CRet v => vok W v
  | CApp e f _ => eok W e /\ vok W f
  | CBindLoop ce _ _ _ _ _ | CRestLoop ce _ _ _ _ _ _ => eok W ce
  | CArgsLoop e _ _ _ _ => eok W e
  | CFunc _ vs => Forall (vok W) vs
  | CApp1 f v => vok W f /\ vok W v
  | CVals f vs => vok W f /\ Forall (vok W) vs
  | CThrow _ vs => Forall (vok W) vs
  | CDynOut _ v _ _ | CDynIn _ v _ | CJump _ v => vok W v
  | CMapLoop e f _ _ _ => eok W e /\ vok W f
  | CEachLoop e f p => eok W e /\ vok W f /\ pok W p
  end.
(* later worlds: nothing that was finished is under construction again *)
Definition ext (W W' : world) : Prop := (forall a, aok W a -> aok W' a) /\ (forall e, eok W e -> eok W' e).
Lemma ext_refl W : ext W W. Proof. split; auto. Qed.
Lemma ext_trans A B C : ext A B -> ext B C -> ext A C. Proof. intros (a & b) (c & d). split; auto. Qed.
Lemma pok_ext W W' p : ext W W' -> pok W p -> pok W' p. Proof. intros (A & B). destruct p; cbn; auto. Qed.
Lemma vok_ext W W' v : ext W W' -> vok W v -> vok W' v. Proof. intros (A & B). destruct v; cbn; auto. Qed.
Lemma voks_ext W W' l : ext W W' -> Forall (vok W) l -> Forall (vok W') l.
Proof. intro E. apply Forall_impl. intro. now apply vok_ext. Qed.
Lemma fok_ext W W' f : ext W W' -> fok W f -> fok W' f.
Proof. intro E. pose proof E as (A & B). destruct f; cbn; intuition eauto using vok_ext, pok_ext. Qed.
Lemma foks_ext W W' l : ext W W' -> Forall (fok W) l -> Forall (fok W') l.
Proof. intro E. apply Forall_impl. intro. now apply fok_ext. Qed.
Lemma cok_ext W W' f : ext W W' -> cok W f -> cok W' f.
Proof. intro E. pose proof E as (A & B). destruct f; cbn; intuition eauto using vok_ext, pok_ext, voks_ext. Qed.

(** ** the store *)
Record sok (W : world) (h : store) : Prop := {
  s_n : wn W = length (h_cells h);
  s_e : en W = length (h_envs h);
  s_data : forall a c, get_cell h a = Some c -> vok W (c_data c);
  s_next : forall a c b, get_cell h a = Some c -> aok W a -> c_next c = Some b -> aok W b;
  s_args : Forall (fun x => vok W (fst x)) (h_args h);
  s_binds : forall e f x v, nth_error (h_envs h) e = Some f -> In (x, v) (e_binds f) -> vok W v;
  s_up : forall e f u, nth_error (h_envs h) e = Some f -> e_up f = Some u -> eok W u;
  s_iters : forall i p, nth_error (h_iters h) i = Some (Some p) -> pok W p }.
Definition cells_kept (P : nat -> Prop) (h h' : store) : Prop := forall a, P a -> get_cell h' a = get_cell h a.
Definition envs_kept (P : nat -> Prop) (h h' : store) : Prop := forall e x, P e -> binding h' e x = binding h e x.

Definition Wcell (W : world) : world := mkW (S (wn W)) (oc W) (en W) (oe W).          (* a finished cell *)
Definition Wopen (W : world) : world := mkW (S (wn W)) (wn W :: oc W) (en W) (oe W).  (* a cell under construction *)
Definition Wenv (W : world) : world := mkW (wn W) (oc W) (S (en W)) (oe W).
Definition Wenvo (W : world) : world := mkW (wn W) (oc W) (S (en W)) (en W :: oe W).
Lemma ext_cell W : ext W (Wcell W). Proof. split; intros a (A & B); split; cbn; auto; lia. Qed.
Lemma ext_open W : ext W (Wopen W). Proof. split; intros a (A & B); split; cbn; auto; try lia; intros [X|X]; try lia; contradiction. Qed.
Lemma ext_env W : ext W (Wenv W). Proof. split; intros a (A & B); split; cbn; auto; lia. Qed.
Lemma ext_envo W : ext W (Wenvo W). Proof. split; intros a (A & B); split; cbn; auto; try lia; intros [X|X]; try lia; contradiction. Qed.

Lemma sok_alloc W h d n dot : sok W h -> vok W d -> pok W n -> ~ In (wn W) (oc W) ->
  sok (Wcell W) (snd (alloc_cell d n dot h)) /\ fst (alloc_cell d n dot h) = wn W.
Proof.
  intros K D N F. destruct K as [a1 a2 a3 a4 a5 a6 a7 a8]. pose proof (ext_cell W) as E. split; [|symmetry; exact a1].
  constructor; cbn; auto.
  - rewrite app_length. cbn. lia.
  - intros a c. unfold get_cell. cbn. rewrite nth_snoc. destruct (Nat.eqb _ _); [intros [= <-]; cbn|]; eauto using vok_ext.
  - intros a c b. unfold get_cell. cbn. rewrite nth_snoc. destruct (Nat.eqb_spec a (length (h_cells h))) as [->|X].
    + intros [= <-] _. cbn. intros ->. cbn in N. now apply E.
    + intros G (L & M) Q. apply E. eapply a4; eauto. split; [apply nth_lt in G; lia|auto].
  - eapply Forall_impl; [|exact a5]. intros. now apply (vok_ext W).
  - intros. eapply vok_ext; eauto.
  - intros. eapply pok_ext; eauto.
Qed.
Lemma sok_alloc_open W h d : sok W h -> vok W d ->
  sok (Wopen W) (snd (alloc_cell d None false h)) /\ fst (alloc_cell d None false h) = wn W.
Proof.
  intros K D. destruct K as [a1 a2 a3 a4 a5 a6 a7 a8]. pose proof (ext_open W) as E. split; [|symmetry; exact a1].
  constructor; cbn; auto.
  - rewrite app_length. cbn. lia.
  - intros a c. unfold get_cell. cbn. rewrite nth_snoc. destruct (Nat.eqb _ _); [intros [= <-]; cbn|]; eauto using vok_ext.
  - intros a c b. unfold get_cell. cbn. rewrite nth_snoc. destruct (Nat.eqb_spec a (length (h_cells h))) as [->|X].
    + intros [= <-] _. cbn. discriminate.
    + intros G (L & M) Q. apply E. eapply a4; eauto. cbn in M. split; [apply nth_lt in G; lia|tauto].
  - eapply Forall_impl; [|exact a5]. intros. now apply (vok_ext W).
  - intros. eapply vok_ext; eauto.
  - intros. eapply pok_ext; eauto.
Qed.
Lemma kept_alloc (P : nat -> Prop) h d n dot : (forall a, P a -> a < length (h_cells h)) -> cells_kept P h (snd (alloc_cell d n dot h)).
Proof. intros L a H. unfold get_cell. cbn. rewrite nth_snoc. apply L in H. destruct (Nat.eqb_spec a (length (h_cells h))); auto. lia. Qed.
(* replacing a cell *)
Lemma sok_set W h a c c0 : sok W h -> get_cell h a = Some c0 -> vok W (c_data c) -> (aok W a -> pok W (c_next c)) -> sok W (set_cell a c h).
Proof.
  intros [a1 a2 a3 a4 a5 a6 a7 a8] G D N. constructor; cbn; auto.
  - now rewrite upd_len.
  - intros b d. unfold get_cell. cbn. rewrite nth_upd. destruct (Nat.eqb b a); eauto. unfold get_cell in G. rewrite G. intros [= <-]. auto.
  - intros b d x. unfold get_cell. cbn. rewrite nth_upd. destruct (Nat.eqb_spec b a) as [->|]; eauto. unfold get_cell in G. rewrite G. intros [= <-] A Q.
    specialize (N A). rewrite Q in N. exact N.
Qed.
Lemma kept_set (P : nat -> Prop) h a c : ~ P a -> cells_kept P h (set_cell a c h).
Proof. intros N b H. unfold get_cell. cbn. rewrite nth_upd. destruct (Nat.eqb_spec b a) as [->|]; auto. contradiction. Qed.
Lemma sok_link W h t n : sok W h -> (forall a, t = Some a -> In a (oc W)) -> sok W (link_cell t n h).
Proof.
  intros K O. destruct t as [t|]; auto. cbn. destruct (get_cell h t) as [c|] eqn:G; auto. eapply sok_set; eauto; cbn.
  - eapply s_data; eauto.
  - intros (_ & N). exfalso. apply N. auto.
Qed.
Lemma kept_link (P : nat -> Prop) h t n : (forall a, t = Some a -> ~ P a) -> cells_kept P h (link_cell t n h).
Proof. intros O. destruct t as [t|]; [|intros a _; reflexivity]. cbn. destruct (get_cell h t); [|intros a _; reflexivity]. apply kept_set. auto. Qed.
Lemma link_envs t n h : h_envs (link_cell t n h) = h_envs h.
Proof. destruct t as [t|]; auto. cbn. destruct (get_cell h t); reflexivity. Qed.

(* environments *)
Lemma in_bind x v l y w : In (y, w) (bind_in x v l) -> w = v \/ In (y, w) l.
Proof.
  induction l as [|(z, u) l IH]; cbn.
  - intros [[= <- <-]|[]]. auto.
  - destruct (String.eqb x z); cbn; intros [[= <- <-]|H]; auto. apply IH in H. tauto.
Qed.
Lemma assq_bind x v l y : assq y (bind_in x v l) = if String.eqb y x then Some v else assq y l.
Proof.
  induction l as [|(z, u) l IH]; cbn.
  - destruct (String.eqb y x); reflexivity.
  - destruct (String.eqb_spec x z) as [->|N]; cbn.
    + destruct (String.eqb y z); reflexivity.
    + rewrite IH. destruct (String.eqb_spec y z) as [->|]; auto. destruct (String.eqb_spec z x); congruence.
Qed.
Lemma assq_in x l v : assq x l = Some v -> In (x, v) l.
Proof. induction l as [|(z, u) l IH]; [discriminate|]. cbn. destruct (String.eqb_spec x z) as [->|]; [intros [= ->]|]; auto. Qed.
Lemma put_len e x v h : length (h_envs (env_put e x v h)) = length (h_envs h).
Proof. unfold env_put. destruct (nth_error (h_envs h) e); cbn; auto. now rewrite upd_len. Qed.
Lemma put_cells e x v h : h_cells (env_put e x v h) = h_cells h.
Proof. unfold env_put. destruct (nth_error (h_envs h) e); reflexivity. Qed.
Lemma sok_put W h e x v : sok W h -> vok W v -> sok W (env_put e x v h).
Proof.
  intros [a1 a2 a3 a4 a5 a6 a7 a8] V. unfold env_put. destruct (nth_error (h_envs h) e) as [f|] eqn:E; [|constructor; auto].
  constructor; cbn; auto.
  - now rewrite upd_len.
  - intros e1 f1 y w. rewrite nth_upd. destruct (Nat.eqb e1 e); [|eauto]. rewrite E. intros [= <-]. cbn. intro I1. apply in_bind in I1.
    destruct I1 as [-> | I1]; eauto.
  - intros e1 f1 u. rewrite nth_upd. destruct (Nat.eqb_spec e1 e) as [->|]; [|eauto]. rewrite E. intros [= <-]. cbn. eauto.
Qed.
Lemma put_binding e x v h e1 y : (e1 <> e \/ y <> x) -> binding (env_put e x v h) e1 y = binding h e1 y.
Proof.
  intro H. unfold env_put, binding. destruct (nth_error (h_envs h) e) as [f|] eqn:E; auto. cbn. rewrite nth_upd.
  destruct (Nat.eqb_spec e1 e) as [->|N]; auto. rewrite E. cbn. rewrite assq_bind. destruct (String.eqb_spec y x); auto.
  destruct H; contradiction.
Qed.
Lemma kept_put (P : nat -> Prop) h e x v : cells_kept P h (env_put e x v h).
Proof. intros a _. unfold get_cell. now rewrite put_cells. Qed.
Lemma sok_env W h u : sok W h -> pok (mkW (en W) (oe W) 0 []) u ->
  sok (Wenv W) (snd (alloc_env u h)) /\ fst (alloc_env u h) = en W.
Proof.
  intros [a1 a2 a3 a4 a5 a6 a7 a8] U. pose proof (ext_env W) as E. split; [|now symmetry].
  constructor; cbn; auto.
  - rewrite app_length. cbn. lia.
  - intros. eapply vok_ext; eauto.
  - eapply Forall_impl; [|exact a5]. intros. now apply (vok_ext W).
  - intros e f x v. rewrite nth_snoc. destruct (Nat.eqb _ _); [intros [= <-] []|]. intros. eapply vok_ext; eauto.
  - intros e f x. rewrite nth_snoc. destruct (Nat.eqb _ _); [intros [= <-]; cbn; intros ->; apply E; exact U|]. intros. apply E. eauto.
Qed.
Lemma sok_envo W h u : sok W h -> pok (mkW (en W) (oe W) 0 []) u ->
  sok (Wenvo W) (snd (alloc_env u h)) /\ fst (alloc_env u h) = en W.
Proof.
  intros [a1 a2 a3 a4 a5 a6 a7 a8] U. pose proof (ext_envo W) as E. split; [|now symmetry].
  constructor; cbn; auto.
  - rewrite app_length. cbn. lia.
  - intros. eapply vok_ext; eauto.
  - eapply Forall_impl; [|exact a5]. intros. now apply (vok_ext W).
  - intros e f x v. rewrite nth_snoc. destruct (Nat.eqb _ _); [intros [= <-] []|]. intros. eapply vok_ext; eauto.
  - intros e f x. rewrite nth_snoc. destruct (Nat.eqb _ _); [intros [= <-]; cbn; intros ->; apply E; exact U|]. intros. apply E. eauto.
Qed.
Lemma env_binding u h e x : e < length (h_envs h) -> binding (snd (alloc_env u h)) e x = binding h e x.
Proof. intro L. unfold binding. cbn. rewrite nth_snoc. destruct (Nat.eqb_spec e (length (h_envs h))); auto. lia. Qed.
(* argument lists and iterators *)
Lemma sok_arg W h v t : sok W h -> vok W v -> sok W (link_arg t (fst (alloc_arg v h)) (snd (alloc_arg v h))).
Proof.
  intros [a1 a2 a3 a4 a5 a6 a7 a8] V. assert (F : Forall (fun x => vok W (fst x)) (h_args h ++ [(v, None)])) by (apply Forall_app; auto).
  destruct t as [t|]; cbn; [|constructor; auto].
  destruct (nth_error (h_args h ++ [(v, None)]) t) as [[w q]|] eqn:E; [|constructor; auto]. constructor; auto. cbn.
  clear - F E. revert t w q E. induction F as [|x l X F IH]; intros t w q E; [destruct t; discriminate|]. destruct t; cbn in *.
  - injection E as ->. constructor; auto.
  - constructor; eauto.
Qed.
Lemma arg_cells v t h : h_cells (link_arg t (fst (alloc_arg v h)) (snd (alloc_arg v h))) = h_cells h /\ h_envs (link_arg t (fst (alloc_arg v h)) (snd (alloc_arg v h))) = h_envs h.
Proof. destruct t as [t|]; cbn; auto. destruct (nth_error _ t) as [[w q]|]; auto. Qed.
Lemma walk_ok W l : Forall (fun x => vok W (fst x)) l -> forall n p, Forall (vok W) (walk_args n l p).
Proof.
  intro F. induction n as [|n IH]; intro p; [constructor|]. destruct p as [a|]; [|constructor]. cbn. destruct (nth_error l a) as [[v q]|] eqn:E; constructor; auto.
  apply nth_error_In in E. rewrite Forall_forall in F. exact (F _ E).
Qed.
Lemma sok_iter W h i p : sok W h -> (forall q, p = Some q -> pok W q) -> sok W (set_iter i p h).
Proof.
  intros [a1 a2 a3 a4 a5 a6 a7 a8] P. constructor; cbn; auto. intros j q. rewrite nth_upd. destruct (Nat.eqb j i); eauto.
  destruct (nth_error (h_iters h) i); [|discriminate]. intros [= ->]. auto.
Qed.
Lemma sok_alloc_iter W h p : sok W h -> pok W p -> sok W (snd (alloc_iter p h)).
Proof.
  intros [a1 a2 a3 a4 a5 a6 a7 a8] P. constructor; cbn; auto. intros j q. rewrite nth_snoc. destruct (Nat.eqb _ _); eauto. intros [= <-]. auto.
Qed.
Lemma get_ok W h e x v : sok W h -> env_get h e x = Some v -> vok W v.
Proof.
  intros K. unfold env_get. destruct (owner h e x) as [o|]; [|discriminate]. unfold binding.
  destruct (nth_error (h_envs h) o) as [f|] eqn:E; [|discriminate]. intro A. exact (s_binds W h K o f x v E (assq_in _ _ _ A)).
Qed.
Lemma sok_set_var W h e x v : sok W h -> vok W v -> sok W (env_set e x v h).
Proof. intros. unfold env_set. destruct (owner h e x); now apply sok_put. Qed.
Lemma set_var_cells e x v h : h_cells (env_set e x v h) = h_cells h /\ length (h_envs (env_set e x v h)) = length (h_envs h).
Proof. unfold env_set. destruct (owner h e x); split; auto using put_cells, put_len. Qed.
Lemma set_var_other e x v h e1 y : y <> x -> binding (env_set e x v h) e1 y = binding h e1 y.
Proof. intro N. unfold env_set. destruct (owner h e x); apply put_binding; auto. Qed.
