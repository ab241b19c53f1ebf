(** The invariant of memory, step by step. *)
From Coq Require Import String List ZArith Bool Lia.
From Verif Require Import MachModel MachSpec MachProofs MachProofs2.
Import ListNotations.
Local Open Scope string_scope.
Local Open Scope list_scope.
Local Open Scope nat_scope.

(** ** what is under construction, and by which frame *)
(* a list being built from [head] to [tail] out of the cells [cs] *)
Definition built (h : store) (head tail : option nat) (cs : list nat) : Prop :=
  (forall a, head = Some a -> In a cs) /\ (forall a, tail = Some a -> In a cs) /\
  forall a, In a cs -> exists c, get_cell h a = Some c /\ forall b, c_next c = Some b -> In b cs.
Definition own_f (h : store) (f : frame) (cs es : list nat) : Prop :=
  match f with
  | FBind _ fe _ _ _ _ _ => cs = [] /\ es = [fe]
  | FRest _ fe _ head tail _ _ => built h head tail cs /\ es = [fe]
  | FMap3 _ _ _ head tail => built h head tail cs /\ es = []
  | _ => cs = [] /\ es = []
  end.
Definition own_c (h : store) (c : ctrl) (cs es : list nat) : Prop :=
  match c with
  | CBindLoop _ fe _ _ _ _ => cs = [] /\ es = [fe]
  | CRestLoop _ fe _ head tail _ _ => built h head tail cs /\ es = [fe]
  | CMapLoop _ _ _ head tail => built h head tail cs /\ es = []
  | _ => cs = [] /\ es = []
  end.
Inductive own_k (h : store) : list frame -> list nat -> list nat -> Prop :=
| ok_nil : own_k h [] [] []
| ok_cons f k cs es cs' es' : own_f h f cs es -> own_k h k cs' es' -> own_k h (f :: k) (cs ++ cs') (es ++ es').
Lemma built_kept h h' a b cs : cells_kept (fun x => In x cs) h h' -> built h a b cs -> built h' a b cs.
Proof. intros K (A & B & C). split; auto. split; auto. intros x I1. destruct (C x I1) as (c & G & N). exists c. split; auto. now rewrite K. Qed.
Lemma own_f_kept h h' f cs es : cells_kept (fun x => In x cs) h h' -> own_f h f cs es -> own_f h' f cs es.
Proof. intro K. destruct f; cbn; auto; intros (A & B); split; auto; now apply (built_kept h). Qed.
Lemma kept_sub (P Q : nat -> Prop) h h' : (forall a, Q a -> P a) -> cells_kept P h h' -> cells_kept Q h h'.
Proof. intros S K a H. auto. Qed.
Lemma own_k_kept h h' k cs es : cells_kept (fun x => In x cs) h h' -> own_k h k cs es -> own_k h' k cs es.
Proof.
  intros K H. induction H; constructor.
  - eapply own_f_kept; [|eauto]. eapply kept_sub; [|exact K]. cbn. intros. apply in_or_app. auto.
  - apply IHown_k. eapply kept_sub; [|exact K]. cbn. intros. apply in_or_app. auto.
Qed.
Lemma own_app h p : forall k cs es, own_k h (p ++ k) cs es -> exists cs1 es1 cs2 es2, cs = cs1 ++ cs2 /\ es = es1 ++ es2 /\ own_k h k cs2 es2.
Proof.
  induction p as [|f p IH]; cbn; intros k cs es H.
  - exists [], [], cs, es. auto.
  - inversion H as [|f' k' c1 e1 c2 e2 F K]; subst. destruct (IH _ _ _ K) as (c3 & e3 & c4 & e4 & -> & -> & Q).
    exists (c1 ++ c3), (e1 ++ e3), c4, e4. rewrite !app_assoc. auto.
Qed.
Lemma own_none h k : (forall f, In f k -> building f = false) -> own_k h k [] [].
Proof.
  induction k as [|f k IH]; intro B; [constructor|]. change (@nil nat) with (@nil nat ++ []). constructor; [|apply IH; intros; apply B; right; auto].
  specialize (B f (or_introl eq_refl)). destruct f; cbn in *; auto; discriminate.
Qed.

Record inv (W : world) (s : mst) : Prop := {
  i_sto : sok W (m_sto s);
  i_ctrl : cok W (m_ctrl s);
  i_stack : Forall (fok W) (m_stack s);
  i_conts : forall j k w, nth_error (m_conts s) j = Some (k, w) -> Forall (fok W) k;
  i_guards : Forall (fun x => vok W (fst (fst x)) /\ vok W (snd (fst x))) (m_guards s);
  i_g : eok W 0;
  i_own : exists cs es cs' es', own_c (m_sto s) (m_ctrl s) cs es /\ own_k (m_sto s) (m_stack s) cs' es' /\ oc W = cs ++ cs' /\ oe W = es ++ es';
  i_dup : NoDup (oc W) /\ NoDup (oe W);
  i_in : (forall a, In a (oc W) -> a < wn W) /\ (forall e, In e (oe W) -> e < en W) }.

(* dropping some of what was under construction, now finished *)
Lemma nodup_app_l {A} (a b : list A) x : NoDup (a ++ b) -> In x a -> ~ In x b.
Proof. induction a as [|y a IH]; cbn; [tauto|]. intros N [->|I1]; inversion N; subst; auto. intro. apply H1. apply in_or_app. auto. Qed.
Lemma nodup_app_r {A} (a b : list A) : NoDup (a ++ b) -> NoDup b.
Proof. induction a; cbn; auto. intro N. inversion N; auto. Qed.
Definition drop (W : world) (oc' oe' : list nat) : world := mkW (wn W) oc' (en W) oe'.
Lemma ext_drop W oc' oe' : incl oc' (oc W) -> incl oe' (oe W) -> ext W (drop W oc' oe').
Proof. intros A B. split; intros a (C & D); split; cbn; auto. Qed.
(* cells that are finished, or are finished now, do not lead to cells under construction *)
Lemma sok_drop W h oc' oe' : sok W h -> incl oc' (oc W) -> incl oe' (oe W) ->
  (forall a c b, In a (oc W) -> ~ In a oc' -> get_cell h a = Some c -> c_next c = Some b -> In b (oc W) /\ b < wn W /\ ~ In b oc') ->
  sok (drop W oc' oe') h.
Proof.
  intros [a1 a2 a3 a4 a5 a6 a7 a8] A B N. pose proof (ext_drop W oc' oe' A B) as E.
  constructor; cbn [wn en drop]; auto.
  - intros. eapply vok_ext; eauto.
  - intros a c b G (L & M) Q. cbn in L, M. destruct (in_dec Nat.eq_dec a (oc W)) as [I1|I1].
    + destruct (N a c b I1 M G Q) as (_ & X & Y). split; auto.
    + apply E. eapply a4; eauto. split; auto.
  - eapply Forall_impl; [|exact a5]. intros. now apply (vok_ext W).
  - intros. eapply vok_ext; eauto.
  - intros. apply E. eauto.
  - intros. eapply pok_ext; eauto.
Qed.

(** ** what a step does to finished memory *)
Definition quiet (W : world) (s s' : mst) : Prop :=
  (mutates s \/ cells_kept (aok W) (m_sto s) (m_sto s')) /\
  (forall e x, eok W e -> assigns s x \/ binding (m_sto s') e x = binding (m_sto s) e x).
Definition good (W : world) (s s' : mst) : Prop := exists W', ext W W' /\ inv W' s' /\ quiet W s s'.

(* steps that leave the store alone *)
Lemma quiet_same W s s' : m_sto s' = m_sto s -> quiet W s s'.
Proof. intro E. split; [right|]; [intros a _|intros; right]; now rewrite E. Qed.
Lemma good_go W s c k : inv W s -> cok W c -> Forall (fok W) k ->
  (forall cs es cs' es', own_c (m_sto s) (m_ctrl s) cs es -> own_k (m_sto s) (m_stack s) cs' es' ->
     exists c1 e1 c2 e2, own_c (m_sto s) c c1 e1 /\ own_k (m_sto s) k c2 e2 /\ cs ++ cs' = c1 ++ c2 /\ es ++ es' = e1 ++ e2) ->
  good W s (go s c k).
Proof.
  intros [i1 i2 i3 i4 i5 i6 i7 i8 i9] C K O. exists W. split; [apply ext_refl|]. split; [|now apply quiet_same].
  constructor; auto. destruct i7 as (cs & es & cs' & es' & A & B & -> & ->). destruct (O _ _ _ _ A B) as (c1 & e1 & c2 & e2 & P & Q & -> & ->).
  exists c1, e1, c2, e2. auto.
Qed.
(* ... and are not concerned with anything under construction *)
Definition plain_c (c : ctrl) : bool := match c with CBindLoop _ _ _ _ _ _ | CRestLoop _ _ _ _ _ _ _ | CMapLoop _ _ _ _ _ => false | _ => true end.
Lemma plain_own h c : plain_c c = true -> own_c h c [] [].
Proof. destruct c; cbn; auto; discriminate. Qed.
Lemma plain_own_inv h c cs es : plain_c c = true -> own_c h c cs es -> cs = [] /\ es = [].
Proof. destruct c; cbn; auto; discriminate. Qed.
Lemma good_plain W s c p k : inv W s -> m_stack s = p ++ k -> plain_c (m_ctrl s) = true -> plain_c c = true -> cok W c ->
  forall q, Forall (fok W) q -> (forall f, In f p -> building f = false) -> (forall f, In f q -> building f = false) -> good W s (go s c (q ++ k)).
Proof.
  intros H E P1 P2 C q Q B1 B2. apply good_go; auto.
  - apply Forall_app. split; auto. pose proof (i_stack W s H) as K. rewrite E in K. apply Forall_app in K. tauto.
  - intros cs es cs' es' A B. apply plain_own_inv in A; auto. destruct A as (-> & ->). cbn.
    exists [], []. rewrite E in B. exists cs', es'. split; [now apply plain_own|]. split; auto.
    clear - B B1 B2. revert cs' es' B. induction p as [|f p IH]; cbn; intros cs' es' B.
    + clear B1. induction q as [|f q IH]; cbn; auto. change cs' with ([] ++ cs'). change es' with ([] ++ es'). constructor; [|apply IH; intros; apply B2; right; auto].
      specialize (B2 f (or_introl eq_refl)). destruct f; cbn in *; auto; discriminate.
    + inversion B as [|f' k' c1 e1 c2 e2 F K]; subst. assert (X : c1 = [] /\ e1 = []).
      { specialize (B1 f (or_introl eq_refl)). destruct f; cbn in *; auto; discriminate. }
      destruct X as (-> & ->). apply IH; auto. intros. apply B1. right. auto.
Qed.
(* the innermost frame is replaced by at most one frame *)
Lemma good_pop W s c f k : inv W s -> m_stack s = f :: k -> plain_c (m_ctrl s) = true -> plain_c c = true -> cok W c -> building f = false -> good W s (go s c k).
Proof. intros. apply (good_plain W s c [f] k H H0 H1 H2 H3 []); auto. intros g [<-|[]]; auto. intros g []. Qed.
Lemma good_swap W s c f g k : inv W s -> m_stack s = f :: k -> plain_c (m_ctrl s) = true -> plain_c c = true -> cok W c -> building f = false ->
  fok W g -> building g = false -> good W s (go s c (g :: k)).
Proof. intros. apply (good_plain W s c [f] k H H0 H1 H2 H3 [g]); auto. intros x [<-|[]]; auto. intros x [<-|[]]; auto. Qed.
Lemma good_push W s c g : inv W s -> plain_c (m_ctrl s) = true -> plain_c c = true -> cok W c -> fok W g -> building g = false -> good W s (go s c (g :: m_stack s)).
Proof. intros. apply (good_plain W s c [] (m_stack s) H eq_refl H0 H1 H2 [g]); auto. intros x []. intros x [<-|[]]; auto. Qed.
Lemma good_keep W s c : inv W s -> plain_c (m_ctrl s) = true -> plain_c c = true -> cok W c -> good W s (go s c (m_stack s)).
Proof. intros. apply (good_plain W s c [] (m_stack s) H eq_refl H0 H1 H2 []); auto. intros x []. intros x []. Qed.
