(** Quasiquote templates. *)
From Coq Require Import String Lia Setoid Morphisms.
From Verif Require Import Base ParseModel PrintModel EnvModel EnvSpec EnvProofs EvalModel EvalMono EvalSpec EvalProofs EvalProofs2.
Local Open Scope string_scope.
Local Open Scope list_scope.

Section Ind.
Variables (P : tm -> Prop) (R : titem -> Prop).
Hypotheses (HA : forall v, P (TAtom v)) (HU : forall x, P (TUnq x)) (HK : forall t, P t -> P (TKeep t)) (HQ : forall t, P t -> P (TQuasi t))
  (HL : forall i is, R i -> Forall R is -> P (TList i is)) (HD : forall i is t, R i -> Forall R is -> P t -> P (TDot i is t))
  (HV : forall is, Forall R is -> P (TVec is))
  (HI : forall t, P t -> R (It t)) (HS : forall x, R (Spl x)) (HKS : forall is, Forall R is -> R (KeepSpl is)).
Fixpoint tm_ind2 (t : tm) : P t :=
  match t with
  | TAtom v => HA v
  | TUnq x => HU x
  | TKeep t => HK t (tm_ind2 t)
  | TQuasi t => HQ t (tm_ind2 t)
  | TList i is => HL i is (item_ind2 i) ((fix go l : Forall R l := match l with [] => Forall_nil _ | i :: r => Forall_cons i (item_ind2 i) (go r) end) is)
  | TDot i is t => HD i is t (item_ind2 i) ((fix go l : Forall R l := match l with [] => Forall_nil _ | i :: r => Forall_cons i (item_ind2 i) (go r) end) is) (tm_ind2 t)
  | TVec is => HV is ((fix go l : Forall R l := match l with [] => Forall_nil _ | i :: r => Forall_cons i (item_ind2 i) (go r) end) is)
  end
with item_ind2 (i : titem) : R i :=
  match i with
  | It t => HI t (tm_ind2 t)
  | Spl x => HS x
  | KeepSpl is => HKS is ((fix go l : Forall R l := match l with [] => Forall_nil _ | i :: r => Forall_cons i (item_ind2 i) (go r) end) is)
  end.
End Ind.

(** inclusion of behaviours *)
Definition incl {A} (b1 b2 : Beh A) : Prop := forall st o, b1 st o -> b2 st o.
Infix "<<=" := incl (at level 70).
Lemma incl_refl {A} (b : Beh A) : b <<= b. Proof. intros st o H; exact H. Qed.
Lemma incl_trans {A} (a b c : Beh A) : a <<= b -> b <<= c -> a <<= c. Proof. intros H1 H2 st o H. auto. Qed.
Lemma incl_eqv {A} (a b : Beh A) : a == b -> a <<= b. Proof. intros H st o K. now apply H. Qed.
Lemma incl_then {A B} (m m' : Beh A) (k k' : A -> Beh B) : m <<= m' -> (forall a, k a <<= k' a) -> andthen m k <<= andthen m' k'.
Proof.
  intros H1 H2 st o [(a & s & K1 & K2)|(o1 & K1 & K2)]; [left; exists a, s; split; [now apply H1|now apply H2]|right; exists o1; split; [now apply H1|auto]].
Qed.
Global Instance incl_proper {A} : Proper (beqv ==> beqv ==> iff) (@incl A).
Proof. intros a b H a' b' H'. split; intros I st o K; [apply H'|apply H']; apply I; now apply H. Qed.
Lemma lim_fun {A} (M : nat -> EM A) (st : state) n o : M n st = o -> o <> OFuel -> lim M st o.
Proof. intros; exists n; auto. Qed.
Lemma raises_then {A B} (k : A -> Beh B) : andthen raises k == raises.
Proof.
  intros st o. unfold raises. split.
  - intros [(a & s & H1 & H2)|(o1 & H1 & H2)].
    + exfalso. unfold err, throw in H1. destruct (find_handler _ _ _); discriminate.
    + subst. unfold err, throw in *. destruct (find_handler _ _ _); inversion H2; reflexivity.
  - intros ->. right. exists (err st). split; [reflexivity|]. unfold err, throw. destruct (find_handler _ _ _); constructor.
Qed.
Lemma none_then {A B} (k : A -> Beh B) (b : Beh B) : andthen (fun _ _ => False) k <<= b.
Proof. intros st o [(a & s & [] & _)|(o1 & [] & _)]. Qed.

Section Quasi.
Variable prim : list Z -> list val -> pres.
Notation run := (runs prim).
Definition Q (e : env) (p : val) (d : nat) : Beh val := lim (fun n => quasi (eval prim n) n e p (Z.of_nat d)).
Lemma mono_q e p d : monotone (fun n => quasi (eval prim n) n e p d).
Proof. intros n n' L. apply m_quasi; auto. now apply hev. Qed.
Lemma Q_step e p d : Q e p d == lim (fun n => quasi (eval prim n) (S n) e p (Z.of_nat d)).
Proof.
  intros st o. split; intros (n & E & N).
  - exists n. split; auto. destruct (m_quasi _ _ (hev prim n n (le_n n)) n (S n) e p (Z.of_nat d) (le_S _ _ (le_n _)) st) as [G|G]; congruence.
  - exists (S n). split; auto. destruct (m_quasi _ _ (hev prim n (S n) (le_S _ _ (le_n _))) (S n) (S n) e p (Z.of_nat d) (le_n _) st) as [G|G]; congruence.
Qed.

(* the rest of a list after its first element *)
Definition rest_of (h : val) (r : list val) (dd : bool) : val := match tail_dotted r dd with Some x => x | None => list_rest (h :: r) dd end.
Lemma Q_plain e h r dd d : is_sym_val h "unquote" = false -> form_is h "unquote-splicing" = false -> is_sym_val h "quasiquote" = false ->
  Q e (VList (h :: r) dd) d == (a <~ Q e h d ;; c <~ Q e (rest_of h r dd) d ;; returns (vcons a c)).
Proof.
  intros H1 H2 H3. rewrite Q_step. cbn [quasi]. change (form_is (VList (h :: r) dd) "unquote") with (is_sym_val h "unquote"). rewrite H1, H2, H3.
  unfold rest_of. destruct (tail_dotted r dd) as [x|];
    (rewrite lim_bind; [|apply mono_q|intro; apply mono_bind; [apply mono_q|intro; apply mono_const]]; apply andthen_cong; [reflexivity|]; intro a;
     rewrite lim_bind; [|apply mono_q|intro; apply mono_const]; apply andthen_cong; [reflexivity|]; intro c; apply lim_ret).
Qed.
Lemma onto_app vs ws t : onto (vs ++ ws) t = onto vs (onto ws t).
Proof. unfold onto. apply fold_right_app. Qed.
Lemma onto_nil ws : onto ws VNil = mklist ws.
Proof. unfold onto. induction ws as [|w ws IH]; [reflexivity|]. cbn [fold_right]. rewrite IH. destruct ws; reflexivity. Qed.
Lemma onto_append v vs c : append2 (VList (v :: vs) false) c = onto (v :: vs) c.
Proof.
  assert (G : forall v vs, onto (v :: vs) c = match c with VNil => VList (v :: vs) false | VList n2 d => VList ((v :: vs) ++ n2) d | x => VList ((v :: vs) ++ [x]) true end).
  { clear v vs. intros v vs. revert v. induction vs as [|w vs IH]; intro v.
    - unfold onto. cbn [fold_right]. destruct c; reflexivity.
    - change (onto (v :: w :: vs) c) with (vcons v (onto (w :: vs) c)). rewrite IH. destruct c; reflexivity. }
  rewrite G. destruct c; reflexivity.
Qed.
Lemma sym_neq v s : v <> sym s -> is_sym_val v s = false.
Proof.
  intro H. destruct v as [| | | | | |x| | | | | | | |]; try reflexivity. cbn. destruct (beq x (bs s)) eqn:E; [|reflexivity]. exfalso. apply H. unfold sym. f_equal.
  destruct (beq_spec x (bs s)); [assumption|discriminate].
Qed.

Definition Pt (e : env) (t : tm) : Prop := forall d, tm_ok d t -> tm_run prim e d t <<= Q e (tm_val t) d.
Definition Ri (e : env) (i : titem) : Prop := forall d r dd (T : Beh val), item_ok d i -> T <<= Q e (rest_of (item_val i) r dd) d ->
  (match i with KeepSpl _ => tail_dotted r dd = None | _ => True end) ->
  (vs <~ item_run prim e d i ;; c <~ T ;; returns (onto vs c)) <<= Q e (VList (item_val i :: r) dd) d.

Lemma Q_nil e d : Q e VNil d == returns VNil.
Proof. rewrite Q_step. apply lim_ret. Qed.
(* the items of a list *)
Lemma Q_items e d : forall is, Forall (Ri e) is -> fold_right (fun i P => item_ok d i /\ P) True is ->
  (vs <~ items_of (item_run prim e d) is ;; returns (mklist vs)) <<= Q e (mklist (map item_val is)) d.
Proof.
  induction is as [|i is IH]; intros F O.
  - cbn [map mklist items_of]. rewrite Q_nil. rewrite andthen_returns. apply incl_refl.
  - inversion F as [|? ? Fi Fr]; subst. destruct O as [Oi Or]. cbn [map].
    change (mklist (item_val i :: map item_val is)) with (VList (item_val i :: map item_val is) false).
    eapply incl_trans; [|apply (Fi d (map item_val is) false (vs <~ items_of (item_run prim e d) is ;; returns (mklist vs)) Oi)].
    3:{ destruct i; auto. unfold tail_dotted. destruct (map item_val is) as [|? [|]]; auto. }
    2:{ replace (rest_of (item_val i) (map item_val is) false) with (mklist (map item_val is)); [apply (IH Fr Or)|].
        unfold rest_of, tail_dotted, list_rest. destruct (map item_val is) as [|? [|]]; reflexivity. }
    apply incl_eqv. change (items_of (item_run prim e d) (i :: is)) with
      (vs <~ item_run prim e d i ;; ws <~ items_of (item_run prim e d) is ;; returns (vs ++ ws)).
    rewrite andthen_assoc. apply andthen_cong; [reflexivity|]. intro vs. rewrite !andthen_assoc. apply andthen_cong; [reflexivity|]. intro ws.
    rewrite !andthen_returns. rewrite <- onto_nil, onto_app, onto_nil. reflexivity.
Qed.
Lemma Q_dot e d t : Pt e t -> tm_ok d t -> forall is i, Forall (Ri e) (i :: is) -> fold_right (fun i P => item_ok d i /\ P) True (i :: is) ->
  (match last (i :: is) i with KeepSpl _ => False | _ => True end) ->
  (vs <~ items_of (item_run prim e d) (i :: is) ;; v <~ tm_run prim e d t ;; returns (onto vs v)) <<= Q e (VList (map item_val (i :: is) ++ [tm_val t]) true) d.
Proof.
  intros Ht Ot. induction is as [|j is IH]; intros i F O L.
  - inversion F as [|? ? Fi Fr]; subst. destruct O as [Oi _]. cbn [map app].
    eapply incl_trans; [|apply (Fi d [tm_val t] true (tm_run prim e d t) Oi)].
    3:{ destruct i; auto. destruct L. }
    2:{ change (rest_of (item_val i) [tm_val t] true) with (tm_val t). apply (Ht d Ot). }
    apply incl_eqv. change (items_of (item_run prim e d) [i]) with (vs <~ item_run prim e d i ;; ws <~ returns [] ;; returns (vs ++ ws)).
    rewrite andthen_assoc. apply andthen_cong; [reflexivity|]. intro vs. rewrite andthen_assoc, !andthen_returns, app_nil_r. reflexivity.
  - inversion F as [|? ? Fi Fr]; subst. destruct O as [Oi Or]. cbn [map app].
    eapply incl_trans; [|apply (Fi d (item_val j :: map item_val is ++ [tm_val t]) true (vs <~ items_of (item_run prim e d) (j :: is) ;; v <~ tm_run prim e d t ;; returns (onto vs v)) Oi)].
    3:{ destruct i; auto. destruct (map item_val is); reflexivity. }
    2:{ replace (rest_of (item_val i) (item_val j :: map item_val is ++ [tm_val t]) true) with (VList (map item_val (j :: is) ++ [tm_val t]) true).
        - apply (IH j Fr Or). cbn [last] in L. destruct is as [|k is]; [exact L|]. revert L. clear. revert i j k. induction is as [|l is IH]; intros i j k L; [exact L|]. cbn [last] in *. apply (IH i j l L).
        - cbn [map app]. unfold rest_of, tail_dotted, list_rest. destruct (map item_val is); reflexivity. }
    apply incl_eqv. change (items_of (item_run prim e d) (i :: j :: is)) with
      (vs <~ item_run prim e d i ;; ws <~ items_of (item_run prim e d) (j :: is) ;; returns (vs ++ ws)).
    rewrite andthen_assoc. apply andthen_cong; [reflexivity|]. intro vs. rewrite !andthen_assoc. apply andthen_cong; [reflexivity|]. intro ws.
    rewrite andthen_returns, andthen_assoc. apply andthen_cong; [reflexivity|]. intro v.
    rewrite andthen_returns, onto_app. reflexivity.
Qed.
Lemma zd d : (1 < d)%nat -> (Z.of_nat d =? 1)%Z = false /\ (Z.of_nat d - 1)%Z = Z.of_nat (Nat.pred d).
Proof. intro L. split; [apply Z.eqb_neq; lia|lia]. Qed.
Lemma items_head e d i is : (vs <~ item_run prim e d i ;; ws <~ items_of (item_run prim e d) is ;; returns (mklist (vs ++ ws))) ==
  (vs <~ items_of (item_run prim e d) (i :: is) ;; returns (mklist vs)).
Proof.
  change (items_of (item_run prim e d) (i :: is)) with (vs <~ item_run prim e d i ;; ws <~ items_of (item_run prim e d) is ;; returns (vs ++ ws)).
  rewrite andthen_assoc. apply andthen_cong; [reflexivity|]. intro vs. rewrite andthen_assoc. apply andthen_cong; [reflexivity|]. intro ws.
  rewrite andthen_returns. reflexivity.
Qed.
Lemma Q_item_plain e t d r dd T : Pt e t -> tm_ok d t -> is_sym_val (tm_val t) "unquote" = false -> is_sym_val (tm_val t) "quasiquote" = false ->
  form_is (tm_val t) "unquote-splicing" = false -> T <<= Q e (rest_of (tm_val t) r dd) d ->
  (vs <~ item_run prim e d (It t) ;; c <~ T ;; returns (onto vs c)) <<= Q e (VList (tm_val t :: r) dd) d.
Proof.
  intros Ht Ot A B C HT. rewrite (Q_plain e (tm_val t) r dd d A C B). cbn [item_run]. rewrite andthen_assoc.
  apply incl_then; [exact (Ht d Ot)|]. intro v. rewrite andthen_returns. apply incl_then; [exact HT|]. intro c. apply incl_refl.
Qed.
Lemma val_not_sym t d s : tm_ok d t -> s = "unquote" \/ s = "quasiquote" -> is_sym_val (tm_val t) s = false.
Proof. destruct t; try reflexivity. cbn [tm_ok tm_val]. intros A [-> | ->]; apply sym_neq; destruct v; try discriminate; destruct A; auto. Qed.
Lemma item_not_sym i d s : item_ok d i -> s = "unquote" \/ s = "quasiquote" -> is_sym_val (item_val i) s = false.
Proof. destruct i; try reflexivity. cbn [item_ok item_val]. intros [A _]. now apply (val_not_sym t d). Qed.
Lemma item_not_us i d : item_ok d i -> match i with It t => form_is (tm_val t) "unquote-splicing" = false | _ => True end.
Proof.
  destruct i; auto. cbn [item_ok]. intros [A B].
  assert (G : forall i, item_ok d i -> match i with It (TAtom v) => v <> sym "unquote-splicing" | _ => True end -> is_sym_val (item_val i) "unquote-splicing" = false).
  { intros [u| |] Ou N; try reflexivity. cbn [item_val]. destruct u; try reflexivity. cbn [tm_val]. now apply sym_neq. }
  destruct t as [v| | | |i is|i is t|is]; try reflexivity.
  - destruct v; try reflexivity; destruct A.
  - cbn [tm_val form_is]. destruct A as [A _]. apply G; [exact A|]. destruct i as [[]| |]; auto.
  - cbn [tm_val form_is]. destruct A as [A _]. apply G; [exact A|]. destruct i as [[]| |]; auto.
Qed.

Theorem template_ok e : forall t, Pt e t.
Proof.
  apply (tm_ind2 (Pt e) (Ri e)).
  - (* atoms *) intros v d O. cbn [tm_run tm_val]. rewrite Q_step. apply incl_eqv. symmetry. cbn [tm_ok] in O.
    destruct v; try apply lim_ret; destruct O.
  - (* ,x *) intros x d O. cbn in O. subst. cbn [tm_run tm_val]. rewrite Q_step. apply incl_eqv. symmetry.
    transitivity (lim (fun n => eval prim n e x)); [|symmetry; apply run_lim].
    apply lim_ext. reflexivity.
  - (* inner , *) intros t IH d O. cbn [tm_ok] in O. destruct O as [L O]. destruct (zd d L) as [E1 E2]. cbn [tm_run tm_val]. rewrite Q_step. cbn [quasi].
    change (form_is (VList [sym "unquote"; tm_val t] false) "unquote") with true. cbn [form_arg]. rewrite E1, E2. cbv iota.
    rewrite lim_bind; [|apply mono_q|intro; apply mono_const]. apply incl_then; [exact (IH _ O)|]. intro v. rewrite lim_ret. apply incl_refl.
  - (* inner ` *) intros t IH d O. cbn [tm_ok] in O. cbn [tm_run tm_val]. rewrite Q_step. cbn [quasi].
    change (form_is (VList [sym "quasiquote"; tm_val t] false) "unquote") with false. cbn [form_arg].
    change (form_is (sym "quasiquote") "unquote-splicing") with false. change (is_sym_val (sym "quasiquote") "quasiquote") with true. cbv iota.
    replace (Z.of_nat d + 1)%Z with (Z.of_nat (S d)) by lia.
    rewrite lim_bind; [|apply mono_q|intro; apply mono_const]. apply incl_then; [exact (IH _ O)|]. intro v. rewrite lim_ret. apply incl_refl.
  - (* lists *) intros i is Hi His d [Oi Ois]. cbn [tm_val]. eapply incl_trans; [apply incl_eqv, (items_head e d i is)|].
    change (VList (item_val i :: map item_val is) false) with (mklist (map item_val (i :: is))).
    apply Q_items; [constructor; auto|]. split; auto.
  - (* dotted lists *) intros i is t Hi His Ht d (Oi & Ois & Ot & L). cbn [tm_run tm_val].
    eapply incl_trans; [|apply (Q_dot e d t Ht Ot is i); [constructor; auto|split; auto|exact L]].
    apply incl_eqv. change (items_of (item_run prim e d) (i :: is)) with
      (vs <~ item_run prim e d i ;; ws <~ items_of (item_run prim e d) is ;; returns (vs ++ ws)).
    rewrite andthen_assoc. apply andthen_cong; [reflexivity|]. intro vs. rewrite andthen_assoc. apply andthen_cong; [reflexivity|]. intro ws.
    rewrite andthen_returns. reflexivity.
  - (* vectors *) intros is His d O. cbn [tm_run tm_val]. cbn [tm_ok] in O. rewrite Q_step. cbn [quasi form_is].
    rewrite lim_bind; [|apply mono_q|intro; apply mono_const].
    eapply incl_trans; [|apply incl_then; [apply (Q_items e d is His O)|intro; apply incl_refl]].
    apply incl_eqv. rewrite andthen_assoc. apply andthen_cong; [reflexivity|]. intro vs. rewrite andthen_returns.
    destruct vs; symmetry; apply lim_ret.
  - (* elements *) intros t Ht d r dd T O HT _. cbn [item_val] in *. pose proof (item_not_us (It t) d O) as NU. destruct O as [O1 O2].
    apply Q_item_plain; auto; apply (val_not_sym t d); auto.
  - (* ,@x *) intros x d r dd T O HT _. cbn in O. subst. cbn [item_val item_run] in *. rewrite Q_step. cbn [quasi].
    change (form_is (VList (VList [sym "unquote-splicing"; x] false :: r) dd) "unquote") with false.
    change (form_is (VList [sym "unquote-splicing"; x] false) "unquote-splicing") with true. cbn [form_arg].
    change (Z.of_nat 1 =? 1)%Z with true. cbv iota.
    set (h := VList [sym "unquote-splicing"; x] false) in *.
    set (K := fun n l => match elements l with
      | None => err
      | Some _ => match tail_dotted r dd with
        | Some x0 => let! c := quasi (eval prim n) n e x0 (Z.of_nat 1) in ret (append2 l c)
        | None => let! c := quasi (eval prim n) n e (list_rest (h :: r) dd) (Z.of_nat 1) in ret (append2 l c)
        end
      end).
    change (lim (fun n => _)) with (lim (fun n => ebind (eval prim n e x) (K n))).
    assert (MK : forall l, monotone (fun n => K n l)).
    { intro l. unfold K. destruct (elements l); [|apply mono_const]. destruct (tail_dotted r dd); (apply mono_bind; [apply mono_q|intro; apply mono_const]). }
    assert (LK : forall l, lim (fun n => K n l) == match elements l with None => raises | Some _ => c <~ Q e (rest_of h r dd) 1 ;; returns (append2 l c) end).
    { intro l. unfold K. destruct (elements l); [|apply lim_err]. unfold rest_of.
      destruct (tail_dotted r dd); (rewrite lim_bind; [|apply mono_q|intro; apply mono_const]; apply andthen_cong; [reflexivity|intro; apply lim_ret]). }
    rewrite lim_bind; [|apply mono_eval|exact MK]. rewrite andthen_assoc.
    apply incl_then; [apply incl_eqv, run_lim|]. intro l. rewrite (LK l).
    destruct l as [| |b|z|c|str|s|[|v vs] [|]|vec|ps dt bd pe|nm ar|ps dt bd me|pa|md|k md];
      cbn [elements]; try (rewrite raises_then; apply incl_refl); try apply none_then.
    + rewrite andthen_returns. apply incl_then; [exact HT|]. intro c. apply incl_refl.
    + rewrite andthen_returns. apply incl_then; [exact HT|]. intro c. rewrite onto_append. apply incl_refl.
  - (* inner ,@ *) intros is His d r dd T (L & NE & O) HT TD. destruct (zd d L) as [E1 E2]. cbn [item_val item_run] in *.
    rewrite Q_step. cbn [quasi].
    set (h := VList (sym "unquote-splicing" :: map item_val is) false) in *.
    change (form_is (VList (h :: r) dd) "unquote") with false. change (form_is h "unquote-splicing") with true.
    destruct is as [|i is]; [congruence|]. cbv iota. change (form_arg h) with (Some (item_val i)). cbv iota. rewrite E1, E2, TD. cbv iota.
    rewrite lim_bind; [|apply mono_q|intro; apply mono_bind; [apply mono_q|intro; apply mono_const]].
    assert (HH : (vs <~ items_of (item_run prim e (Nat.pred d)) (i :: is) ;; returns (VList (sym "unquote-splicing" :: vs) false)) <<= Q e h (Nat.pred d)).
    { unfold h. rewrite (Q_plain e (sym "unquote-splicing") (map item_val (i :: is)) false (Nat.pred d) eq_refl eq_refl eq_refl).
      assert (QS : Q e (sym "unquote-splicing") (Nat.pred d) == returns (sym "unquote-splicing")) by (rewrite Q_step; apply lim_ret).
      rewrite QS. rewrite andthen_returns.
      replace (rest_of (sym "unquote-splicing") (map item_val (i :: is)) false) with (mklist (map item_val (i :: is))).
      2:{ unfold rest_of. cbn [map]. unfold tail_dotted, list_rest. destruct (map item_val is); reflexivity. }
      eapply incl_trans; [|apply incl_then; [apply (Q_items e (Nat.pred d) (i :: is) His O)|intro; apply incl_refl]].
      apply incl_eqv. rewrite andthen_assoc. apply andthen_cong; [reflexivity|]. intro vs. rewrite andthen_returns. destruct vs; reflexivity. }
    unfold rest_of in HT. rewrite TD in HT.
    eapply incl_trans; [|apply incl_then; [exact HH|intro; apply incl_refl]].
    rewrite !andthen_assoc. apply incl_then; [apply incl_refl|]. intro vs. rewrite !andthen_returns.
    rewrite lim_bind; [|apply mono_q|intro; apply mono_const]. apply incl_then; [exact HT|]. intro c. rewrite lim_ret. apply incl_refl.
Qed.

Theorem runs_quasi e t st o : plain e "quasiquote" st -> tm_ok 1 t -> tm_run prim e 1 t st o -> run e (form_ "quasiquote" [tm_val t]) st o.
Proof.
  intros P O H. rewrite (runs_special prim e "quasiquote" FQuasi _ st o P eq_refl). cbn [special]. exact (template_ok e t 1%nat O st o H).
Qed.
Lemma items_const e d is : Forall (fun i => forall d, item_const i -> item_run prim e d i == returns [item_val i]) is ->
  fold_right (fun i P => item_const i /\ P) True is -> items_of (item_run prim e d) is == returns (map item_val is).
Proof.
  induction 1 as [|i is Hi _ IH]; intro C; [reflexivity|]. destruct C as [Ci C].
  change (items_of (item_run prim e d) (i :: is)) with (vs <~ item_run prim e d i ;; ws <~ items_of (item_run prim e d) is ;; returns (vs ++ ws)).
  rewrite (Hi d Ci), andthen_returns, (IH C). apply (andthen_returns (map item_val is)).
Qed.
Lemma onto_dot v vs t : match t with VNil | VList _ _ => False | _ => True end -> onto (v :: vs) t = VList (v :: vs ++ [t]) true.
Proof.
  intro H. rewrite <- onto_append. destruct t; try reflexivity; destruct H.
Qed.
Lemma const_run e : forall t d, tm_const t -> tm_run prim e d t == returns (tm_val t).
Proof.
  apply (tm_ind2 (fun t => forall d, tm_const t -> tm_run prim e d t == returns (tm_val t))
                 (fun i => forall d, item_const i -> item_run prim e d i == returns [item_val i])).
  - reflexivity.
  - intros x d [].
  - intros t IH d C. cbn [tm_run tm_val]. rewrite (IH _ C). now rewrite andthen_returns.
  - intros t IH d C. cbn [tm_run tm_val]. rewrite (IH _ C). now rewrite andthen_returns.
  - intros i is Hi His d [Ci Cis]. cbn [tm_run tm_val]. rewrite (Hi d Ci), andthen_returns. rewrite (items_const e d is His Cis), andthen_returns. reflexivity.
  - intros i is t Hi His Ht d (Ci & Cis & Ct & N). cbn [tm_run tm_val]. rewrite (Hi d Ci), andthen_returns.
    rewrite (items_const e d is His Cis), andthen_returns, (Ht d Ct), andthen_returns.
    change ([item_val i] ++ map item_val is) with (item_val i :: map item_val is). rewrite onto_dot by exact N. reflexivity.
  - intros is His d C. cbn [tm_run tm_val]. rewrite (items_const e d is His C), andthen_returns. reflexivity.
  - intros t Ht d C. cbn [item_run item_val]. rewrite (Ht d C). apply (andthen_returns (tm_val t)).
  - intros x d [].
  - intros is His d C. cbn [item_run item_val]. rewrite (items_const e (Nat.pred d) is His C). apply (andthen_returns (map item_val is)).
Qed.
End Quasi.
