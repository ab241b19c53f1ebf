(** The natural semantics keeps memory well-formed: environments of closures
    exist, and no value is a continuation. *)
From Coq Require Import String List ZArith Bool Lia.
From Verif Require Import MachModel MachSpec MachProofs MachProofs2 MachNat MachNatProofs MachNatSim.
Import ListNotations.
Local Open Scope string_scope.
Local Open Scope list_scope.
Local Open Scope nat_scope.

Definition okv (n : nat) (v : mv) : Prop := match v with MProc _ _ _ pe => pe < n | MCont _ => False | _ => True end.
Definition fl (m : mem) : nat := length (frames m).
Definition okc (n : nat) (c : list cell) : Prop := Forall (fun x => okv n (c_data x)) c.
Definition okf (n : nat) (f : list (vars * option nat)) : Prop := Forall (fun g => forall x v, fst g x = Some v -> okv n v) f.
Definition okm (m : mem) : Prop := 0 < fl m /\ okc (fl m) (cells m) /\ okf (fl m) (frames m).
Definition okt (n : nat) (t : task) : Prop :=
  match t with
  | TEval e _ | TBody e _ => e < n
  | TCall e f _ => e < n /\ okv n f
  | TParams e fe ps r _ _ => e < n /\ fe < n /\ (ps <> [] \/ r = None)
  | TRest e fe _ _ _ _ => e < n /\ fe < n
  | TOperands e _ vs _ => e < n /\ Forall (okv n) vs
  | TPrim _ vs => Forall (okv n) vs
  | TCall1 f v => okv n f /\ function f /\ okv n v
  | TCallValues f vs => okv n f /\ procedure f /\ Forall (okv n) vs
  | TMap e f _ _ | TEach e f _ => e < n /\ okv n f /\ function f
  end.
Definition oko (n : nat) (o : outcome) : Prop :=
  match o with RVal v => okv n v | RStop (Thrown _ args) => Forall (okv n) args | RStop (Exit _) => True end.
Lemma okv_mono n n' v : n <= n' -> okv n v -> okv n' v.
Proof. destruct v; cbn; intros; try assumption; lia. Qed.
Lemma okvs_mono n n' vs : n <= n' -> Forall (okv n) vs -> Forall (okv n') vs.
Proof. intros L. apply Forall_impl. intros v. apply okv_mono. exact L. Qed.
Lemma okc_mono n n' c : n <= n' -> okc n c -> okc n' c.
Proof. intros L. apply Forall_impl. intros v. apply okv_mono. exact L. Qed.
Lemma okf_mono n n' c : n <= n' -> okf n c -> okf n' c.
Proof. intros L. apply Forall_impl. intros g H x v E. eapply okv_mono; eauto. Qed.
Lemma fl_bind e x v m : fl (bind_var e x v m) = fl m.
Proof. unfold fl, bind_var. cbn. apply set_nth_len. Qed.
Lemma fl_new pe m : fl (new_frame pe m) = S (fl m).
Proof. unfold fl, new_frame. cbn. rewrite app_length. cbn. lia. Qed.
Lemma ok_bind e x v m : okm m -> okv (fl m) v -> okm (bind_var e x v m).
Proof.
  intros (P & C & F) V. unfold okm. rewrite fl_bind. split; [exact P|]. split; [exact C|]. cbn. unfold okf in *. rewrite set_nth_upd.
  destruct (nth_error (frames m) e) as [[f up]|] eqn:E; [|exact F]. assert (H : forall y u, fst (with_var x v f, up) y = Some u -> okv (fl m) u).
  { cbn. unfold with_var. intros y u. destruct (String.eqb y x); [intros [= <-]; exact V|]. rewrite Forall_forall in F. apply (F (f, up)). eapply nth_error_In; eauto. }
  revert e E H F. generalize (frames m). induction l as [|g r IH]; intros [|e] E H F; cbn in *; try discriminate; inversion F; subst; constructor; auto.
Qed.
Lemma ok_new pe m : okm m -> okm (new_frame pe m).
Proof.
  intros (P & C & F). unfold okm. rewrite fl_new. split; [lia|]. split; [eapply okc_mono; [|exact C]; lia|]. cbn. apply Forall_app.
  split; [eapply okf_mono; [|exact F]; lia|]. constructor; [|constructor]. cbn. discriminate.
Qed.
Lemma ok_cells c m : okm m -> okc (fl m) c -> okm (mkMem c (frames m)).
Proof. intros (P & C & F) H. split; [exact P|]. split; [exact H|exact F]. Qed.
Lemma okc_snoc n c x : okc n c -> okv n (c_data x) -> okc n (c ++ [x]).
Proof. intros C H. apply Forall_app. split; [exact C|]. constructor; [exact H|constructor]. Qed.
Lemma okc_set n c i g : okc n c -> (forall x, okv n (c_data x) -> okv n (c_data (g x))) -> okc n (set_nth c i g).
Proof. intros C H. revert i. induction C as [|x r P C IH]; intros [|i]; cbn; try constructor; auto. apply IH. Qed.
Lemma okc_nth n c i x : okc n c -> nth_error c i = Some x -> okv n (c_data x).
Proof. intros C H. unfold okc in C. rewrite Forall_forall in C. apply C. eapply nth_error_In; eauto. Qed.
Lemma ok_list n vs : Forall (okv n) vs -> forall c, okc n c -> okv n (fst (new_list vs c)) /\ okc n (snd (new_list vs c)).
Proof.
  induction 1 as [|v r V F IH]; intros c C; [split; [exact Logic.I|exact C]|]. cbn [new_list]. destruct (IH c C) as (A & B). destruct (new_list r c) as [t c1]. cbn [fst snd] in *.
  split; [exact Logic.I|]. apply okc_snoc; assumption.
Qed.
Lemma ok_grow n l v c l1 c1 : grow l v c = (l1, c1) -> okc n c -> okv n v -> okc n c1.
Proof. unfold grow. intros [= <- <-] C V. apply okc_snoc; [|exact V]. destruct (rev l); [exact C|]. apply okc_set; [exact C|]. cbn. auto. Qed.
Lemma ok_tail n d c : okc n c -> okv n d -> okc n (snd (tail_of d c)).
Proof. intros C V. destruct d as [[| | | |]| | | |]; cbn; try exact C; apply okc_snoc; assumption. Qed.
Lemma ok_prim n p vs c v c1 : primitive p vs c = Some (v, c1) -> okc n c -> Forall (okv n) vs -> okv n v /\ okc n c1.
Proof.
  unfold primitive. destruct p; intros H C V; try discriminate H.
  - destruct (ok_list n vs V c C) as (A & B). inversion H as [E]. rewrite E in A, B. auto.
  - destruct vs as [|a [|d [|? ?]]]; try discriminate H. inversion V as [|? ? V1 V2]; subst. inversion V2 as [|? ? V3 V4]; subst. pose proof (ok_tail n d c C V3) as Q. destruct (tail_of d c) as [k c2]. inversion H; subst.
    split; [exact Logic.I|]. apply okc_snoc; assumption.
  - destruct vs as [|[] [|? ?]]; try discriminate H. destruct (nth_error c a) eqn:E; inversion H; subst. split; [eapply okc_nth; eauto|exact C].
  - destruct vs as [|[] [|? ?]]; try discriminate H. destruct (nth_error c a) as [x|] eqn:E; inversion H; subst. split; [|exact C].
    destruct (c_next x) as [b|]; [|exact Logic.I]. destruct (nth_error c1 b) as [y|] eqn:E2; [|exact Logic.I]. destruct (c_dot y); [eapply okc_nth; eauto|exact Logic.I].
  - destruct vs as [|[] [|u [|? ?]]]; try discriminate H. inversion V as [|? ? V1 V2]; subst. inversion V2 as [|? ? V3 V4]; subst. destruct (nth_error c a); inversion H; subst. split; [exact Logic.I|].
    apply okc_set; [exact C|]. cbn. auto.
  - destruct vs as [|[] [|u [|? ?]]]; try discriminate H. inversion V as [|? ? V1 V2]; subst. inversion V2 as [|? ? V3 V4]; subst. pose proof (ok_tail n u c C V3) as Q. destruct (tail_of u c) as [k c2]. cbn [snd] in Q.
    destruct (nth_error c2 a); inversion H; subst. split; [exact Logic.I|]. apply okc_set; [exact Q|]. cbn. auto.
  - destruct (all_ints vs); inversion H; subst; split; [exact Logic.I|exact C].
  - destruct (all_ints vs) as [[|? [|? [|? ?]]]|]; inversion H; subst; split; [exact Logic.I|exact C].
  - destruct (all_ints vs) as [[|? [|? [|? ?]]]|]; inversion H; subst; split; [exact Logic.I|exact C].
  - destruct vs as [|[[| | | |]| | | |] [|? ?]]; inversion H; subst; (split; [exact Logic.I|exact C]).
Qed.
Lemma ok_bind_all fe ex ps r vs m o : bind_all fe ex ps r vs m o -> okm m -> Forall (okv (fl m)) vs -> forall m1, o = Some m1 -> okm m1 /\ fl m1 = fl m.
Proof.
  induction 1 as [m|v vs m|y vs m l c N|p ps r v vs m o B IH|p ps m|p ps y m X|p ps y m X]; intros M V m1 Q; inversion Q; subst; auto.
  - assert (A : okv (fl m) l /\ okc (fl m) c). { destruct (ok_list (fl m) vs V (cells m)) as (A & B); [apply M|]. rewrite N in A, B. auto. }
    rewrite fl_bind. split; [|reflexivity]. apply ok_bind; [apply ok_cells; [exact M|apply A]|apply A].
  - inversion V; subst. specialize (IH (ok_bind fe p v m M ltac:(assumption))). rewrite fl_bind in IH. apply IH; auto.
Qed.
Lemma ok_bound m e x o v : okm m -> bound_at (frames m) e x o v -> okv (fl m) v.
Proof.
  intros (_ & _ & F) B. induction B as [e x f up v N A|]; auto. unfold okf in F. rewrite Forall_forall in F. apply (F (f, up)) with x; [eapply nth_error_In; eauto|exact A].
Qed.
Lemma one_function f : takes_one f -> function f.
Proof. destruct f; cbn; auto. Qed.
Lemma proc_function f : procedure f -> function f.
Proof. destruct f; cbn; auto. Qed.

Lemma fl_mk c m : fl (mkMem c (frames m)) = fl m.
Proof. reflexivity. Qed.
Ltac flr := rewrite ?fl_bind, ?fl_new, ?fl_mk in *.
Ltac okvt := solve [ assumption | exact Logic.I | lia | eapply okv_mono; [|eassumption]; flr; lia | eapply okvs_mono; [|eassumption]; flr; lia
  | apply one_function; assumption | apply proc_function; assumption | (eapply okc_nth; [|eassumption]; match goal with M : okm ?m |- okc (fl ?m) _ => apply M end)
  | eapply ok_bound; eassumption | constructor; [okv_done|okvs_done] ]
with okv_done := solve [exact Logic.I | assumption]
with okvs_done := solve [assumption | constructor | eapply okvs_mono; [|eassumption]; lia].
Ltac okmt := solve [ assumption | apply ok_bind; [okmt2|okvt] | apply ok_new; assumption | okmt2 ]
with okmt2 := solve [ assumption | apply ok_new; assumption | (apply ok_cells; [assumption|eapply ok_grow; [eassumption| |okvt]; match goal with M : okm ?m |- okc (fl ?m) _ => apply M end]) ].
Ltac oktt := cbn [okt]; flr; repeat split; okvt.
Ltac ihs := repeat match goal with
  | IH : okm ?m -> okt (fl ?m) ?t -> _ |- _ =>
     let M' := fresh "M" in let T' := fresh "T" in assert (M' : okm m) by okmt; assert (T' : okt (fl m) t) by oktt; specialize (IH M' T'); cbn [okt oko] in T', IH;
     let A := fresh "A" in let B := fresh "B" in let C := fresh "C" in destruct IH as (A & B & C)
  end.
Lemma ok_list_of n l : okv n (list_of l).
Proof. destruct l; exact Logic.I. Qed.
Lemma ev_ok d m t o m' : ev d m t o m' -> okm m -> okt (fl m) t -> okm m' /\ oko (fl m') o /\ fl m <= fl m'.
Proof.
  induction 1; intros M T; cbn [okt] in T; cbn [oko]; repeat match goal with Q : _ /\ _ |- _ => destruct Q end;
    try match goal with H : bind_all _ _ _ _ _ _ (Some _) |- _ => pose proof (fun A B => ok_bind_all _ _ _ _ _ _ _ H A B _ eq_refl) as OB; clear H; rewrite fl_new in OB end;
    try (destruct OB as (OM & OL); [apply ok_new; exact M|solve [repeat constructor; okvt | okvt]|]);
    try match goal with H : primitive _ _ _ = Some _ |- _ => apply (ok_prim (fl m)) in H; [destruct H|apply M|assumption] end;
    ihs; flr; unfold wrong;
    try (split; [okmt|]; split; [cbn [oko]; first [okvt | constructor]|lia]).
  all: change (length (frames m)) with (fl m) in *.
  - destruct IHev as (A & B & C); [exact M|cbn [okt]; split; [lia|constructor]|]. auto.
  - destruct IHev as (A & B & C); [okmt|cbn [okt]; flr; split; lia|]; flr; split; [exact A|]; split; [exact B|lia].
  - destruct IHev as (A & B & C); [okmt|cbn [okt]; flr; repeat split; first [lia|assumption]|]; flr; split; [exact A|]; split; [exact B|lia].
  - destruct IHev as (A & B & C); [apply ok_bind; [exact M|apply ok_list_of]|cbn [okt]; flr; lia|]; flr. auto.
  - destruct IHev2 as (A2 & B2 & C2); [exact A|cbn [okt]; split; [lia|]|].
    + apply Forall_app. split; [okvt|]. constructor; [exact B|constructor].
    + split; [exact A2|]. split; [exact B2|lia].
  - split; [apply ok_cells; assumption|]. split; [assumption|lia].
  - split; [assumption|]. split; [inversion T; assumption|lia].
  - inversion T as [|? ? T1 T2]; subst. inversion T2 as [|? ? T3 T4]; subst. destruct IHev as (A & B & C); [exact M|cbn [okt]; split; [apply M|exact T3]|]. auto.
  - inversion T as [|? ? T1 T2]; subst. inversion T2 as [|? ? T3 T4]; subst. inversion T4 as [|? ? T5 T6]; subst.
    destruct IHev1 as (A & B & C); [exact M|cbn [okt]; split; [apply M|exact T3]|]. cbn [oko] in B.
    destruct IHev2 as (A2 & B2 & C2); [exact A|cbn [okt]; split; [eapply okv_mono; [|exact T5]; lia|]; split; [assumption|constructor; [exact Logic.I|exact B]]|].
    split; [exact A2|]. split; [exact B2|lia].
  - inversion T as [|? ? T1 T2]; subst. inversion T2 as [|? ? T3 T4]; subst. destruct IHev as (A & B & C); [exact M|cbn [okt]; split; [apply M|exact T3]|]. auto.
  - inversion T as [|? ? T1 T2]; subst. inversion T2 as [|? ? T3 T4]; subst. destruct IHev as (A & B & C); [exact M|cbn [okt]; split; [apply M|exact T3]|]. auto.
  - destruct IHev as (A & B & C); [exact OM|cbn [okt]; lia|]. split; [exact A|]. split; [exact B|lia].
  - destruct IHev as (A & B & C); [exact OM|cbn [okt]; lia|]. split; [exact A|]. split; [exact B|lia].
  - split; [exact M|]. split; [apply ok_list_of|lia].
Qed.
