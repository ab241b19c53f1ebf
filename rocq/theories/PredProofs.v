(** Proofs for C76-C78. *)
From Coq Require Import Lia String.
From Verif Require Import Base NumModel HeapModel EqModel StringModel ListModel ListSpec ListProofs PrintModel ParseModel ParseSpec ParseProofs ParseProofs2 ParseLocal PredModel PredSpec.
From Verif Require EnvModel.
Local Open Scope Z_scope.
Local Open Scope list_scope.

(** ** type predicates *)
Lemma check_says p h a o : h_obj h a = Some o -> type_check p a h = Ok (bool_a (p o), h).
Proof. intro E. unfold type_check, mbind, get. now rewrite E. Qed.
Lemma bool_a_inj b c : bool_a b = bool_a c -> b = c. Proof. destruct b, c; intro H; try reflexivity; discriminate H. Qed.
Lemma says_check p h a o b : h_obj h a = Some o -> (says (type_check p) h a b <-> p o = b).
Proof.
  intro E. unfold says. rewrite (check_says p h a o E). split; [|now intros ->].
  intro H. injection H as H. now apply bool_a_inj.
Qed.
Definition nine_p : list (obj -> bool) :=
  [is_bool; is_nil; is_pair; (fun o => is_num o || is_float o || is_ratio o); is_sym; is_str; is_char; is_vector;
   (fun o => is_proc o || is_cont o || is_func o)].
Lemma nine_eq : nine = map type_check nine_p. Proof. reflexivity. Qed.
Lemma nine_disjoint o : forall i j p q, nth_error nine_p i = Some p -> nth_error nine_p j = Some q ->
  p o = true -> q o = true -> i = j.
Proof.
  intros i j p q Ei Ej P Q.
  assert (C : forall k r, nth_error nine_p k = Some r -> r o = true ->
     k = match o with OBool _ => 0 | ONil => 1 | OList _ => 2 | ONum _ | OFloat _ | ORatio _ _ => 3 | OSym _ => 4 | OStr _ => 5 | OChar _ => 6 | OVec _ => 7 | _ => 8 end%nat).
  { intros k r Ek R. do 9 (destruct k as [|k]; [cbn in Ek; injection Ek as <-; destruct o; try discriminate; reflexivity|]). destruct k; discriminate. }
  rewrite (C i p Ei P), (C j q Ej Q). reflexivity.
Qed.

(** ** symbols *)
Lemma dec_nat_inj a b : 0 <= a <= i64_max -> 0 <= b <= i64_max -> dec_nat a = dec_nat b -> a = b.
Proof.
  intros A B E. pose proof (dec_nat_read a [] A) as X. pose proof (dec_nat_read b [] B) as Y. rewrite E in X. rewrite Y in X. cbn [int_digits] in X. now injection X.
Qed.
Lemma gensym_name_inj a b : 0 <= a <= int32_max -> 0 <= b <= int32_max -> gensym_name a = gensym_name b -> a = b.
Proof.
  intros A B E. unfold gensym_name in E. injection E as E. unfold dec in E.
  destruct (Z.ltb_spec a 0); [lia|]. destruct (Z.ltb_spec b 0); [lia|].
  assert (H9 : int32_max <= i64_max) by (vm_compute; discriminate). apply dec_nat_inj; auto; lia.
Qed.
Lemma gensym_inv i h a i' h' : gensym i h = Ok ((a, i'), h') ->
  i <> int32_max /\ i' = i + 1 /\ h_obj h' a = Some (OSym (gensym_name i)) /\ a = h_next h.
Proof.
  unfold gensym. destruct (Z.eqb_spec i int32_max); [discriminate|]. unfold mbind, alloc, ret. intro E. injection E as <- <- <-.
  cbn. unfold HeapModel.upd. rewrite Nat.eqb_refl. auto.
Qed.
Lemma gens_inv i h l : gens i h l -> 0 <= i <= int32_max /\ l = map gensym_name (map Z.of_nat (List.seq 0 (Z.to_nat i))).
Proof.
  induction 1 as [h|i h h' l G IH|i h l a i' h' n G IH E N].
  - split; [unfold int32_max; lia|reflexivity].
  - exact IH.
  - destruct IH as [R ->]. apply gensym_inv in E as (N1 & -> & N2 & _). rewrite N2 in N. injection N as <-. split; [lia|].
    replace (Z.to_nat (i + 1)) with (S (Z.to_nat i)) by lia. rewrite seq_S, !map_app. cbn [map plus]. now rewrite Z2Nat.id by lia.
Qed.
Lemma nodup_map {A B} (f : A -> B) l : (forall x y, In x l -> In y l -> f x = f y -> x = y) -> NoDup l -> NoDup (map f l).
Proof.
  intros I. induction 1 as [|x l N D IH]; [constructor|]. cbn. constructor.
  - intro H. apply in_map_iff in H as (y & E & H). assert (y = x) by (apply I; cbn; auto). subst. contradiction.
  - apply IH. intros y z Y Z. apply I; now right.
Qed.
Lemma gens_nodup i h l : gens i h l -> NoDup l.
Proof.
  intro G. apply gens_inv in G as [R ->]. apply nodup_map; [|apply nodup_map; [|apply seq_NoDup]].
  - intros x y X Y. apply in_map_iff in X as (m & <- & X). apply in_map_iff in Y as (k & <- & Y). apply in_seq in X, Y. apply gensym_name_inj; lia.
  - intros x y _ _. lia.
Qed.
Lemma gens_blank i h l x : gens i h l -> In x l -> exists r, x = 32 :: r /\ Forall (fun c => c <> 0) x.
Proof.
  intros G I. apply gens_inv in G as [R ->]. apply in_map_iff in I as (z & <- & I). apply in_map_iff in I as (k & <- & _).
  exists (103 :: dec (Z.of_nat k)). split; [reflexivity|]. unfold gensym_name. repeat (constructor; [discriminate|]).
  unfold dec. destruct (Z.ltb_spec (Z.of_nat k) 0); [lia|]. destruct (dec_nat_digits (Z.of_nat k) ltac:(lia)) as (c & l' & -> & D & F).
  constructor; [unfold digit in D; lia|]. eapply Forall_impl; [|exact F]. unfold digit. intros; lia.
Qed.

(* eq? of two symbols whose names have no NUL: same name *)
Lemma c_str_id s : Forall (fun c => c <> 0) s -> c_str s = s.
Proof. induction 1 as [|c s N F IH]; [reflexivity|]. cbn. rewrite (proj2 (Z.eqb_neq c 0) N). f_equal. exact IH. Qed.
Lemma zlist_eqb_iff a b : zlist_eqb a b = true <-> a = b.
Proof.
  revert b. induction a as [|x a IH]; intros [|y b]; cbn; split; try congruence.
  - intro E. apply andb_true_iff in E as [E F]. apply Z.eqb_eq in E. apply IH in F. congruence.
  - intro E. injection E as -> ->. rewrite Z.eqb_refl. now apply IH.
Qed.
Lemma sym_eq_iff x y : Forall (fun c => c <> 0) x -> Forall (fun c => c <> 0) y -> (sym_eq x y = true <-> x = y).
Proof. intros X Y. unfold sym_eq. rewrite (c_str_id x X), (c_str_id y Y). apply zlist_eqb_iff. Qed.
Lemma eq_syms h a b x y : h_obj h a = Some (OSym x) -> h_obj h b = Some (OSym y) ->
  Forall (fun c => c <> 0) x -> Forall (fun c => c <> 0) y ->
  exists r, eq_p a b h = Ok (r, h) /\ (r = true <-> x = y).
Proof.
  intros A B X Y. unfold eq_p. destruct (Nat.eqb_spec a b) as [->|N].
  - exists true. split; [reflexivity|]. rewrite A in B. injection B as <-. tauto.
  - unfold mbind, get. rewrite A, B. cbn. exists (sym_eq x y). split; [reflexivity|now apply sym_eq_iff].
Qed.

(** ** the reader's names *)
Definition okc (c : Z) : Prop := isspace c = false /\ c <> 40 /\ c <> 41 /\ c <> 59 /\ c <> 0.
Definition okd (d : rdatum) : Prop := forall x, occurs x d -> Forall okc x.
Lemma symchar_ok c : symchar c = true -> okc c.
Proof.
  unfold symchar. intro H. apply orb_true_iff in H as [H|H].
  - unfold isalnum, isalpha, isupper, islower, isdigit in H. unfold okc, isspace. lia.
  - unfold mem in H. apply existsb_exists in H as (x & I & E). apply Z.eqb_eq in E. subst x.
    assert (G : forallb (fun c => negb (isspace c || (c =? 40) || (c =? 41) || (c =? 59) || (c =? 0))) (bs "!$%&*+-./:<=>?@^_~|") = true) by reflexivity.
    rewrite forallb_forall in G. specialize (G c I). unfold okc. destruct (isspace c); cbn in G; [discriminate|]. lia.
Qed.
Lemma esc_ok_ok c : esc_ok c = true -> okc c.
Proof. unfold esc_ok, okc. destruct (isspace c); lia. Qed.
Lemma okc_92 : okc 92. Proof. unfold okc. repeat split; try discriminate. Qed.
Lemma sym_scan_ok : forall m s, (length s <= m)%nat -> Forall okc (fst (sym_scan s)).
Proof.
  induction m as [|m IH]; intros [|c s] L; cbn in L; try (cbn; constructor; fail); try lia. cbn [sym_scan].
  destruct (c =? 0); [constructor|]. destruct (Z.eqb_spec c 92) as [->|].
  - destruct s as [|c2 r2]; [constructor; [exact okc_92|constructor]|]. destruct (esc_ok c2) eqn:E.
    + specialize (IH r2). destruct (sym_scan r2). cbn in *. constructor; [exact okc_92|]. constructor; [now apply esc_ok_ok|]. apply IH. lia.
    + specialize (IH (c2 :: r2)). destruct (sym_scan (c2 :: r2)). cbn [fst] in *. constructor; [exact okc_92|]. apply IH. cbn in *. lia.
  - destruct (symchar c) eqn:E; [|constructor]. specialize (IH s). destruct (sym_scan s). cbn in *. constructor; [now apply symchar_ok|]. apply IH. lia.
Qed.
Lemma sym_name_ok : forall m raw, (length raw <= m)%nat -> Forall okc raw -> Forall okc (sym_name raw).
Proof.
  induction m as [|m IH]; intros [|c r] L F; cbn in L; try (cbn; constructor; fail); try lia. inversion F; subst. cbn [sym_name].
  destruct (c =? 92); [|constructor; auto; apply IH; auto; lia]. destruct r as [|c2 r2]; [constructor|]. inversion H2; subst. cbn in L. constructor; auto. apply IH; auto. lia.
Qed.
Lemma okd_sym x : Forall okc x -> okd (RSym x). Proof. intros F y O. now inversion O; subst. Qed.
Lemma p_symbol_names s d r : p_symbol s = Ok (Some (d, r)) -> okd d.
Proof.
  unfold p_symbol. destruct ((at0 s =? 35) && (at1 s =? 116) && tok_end (at2 s)).
  { intro E. apply bind_inv in E as (k & _ & E). injection E as <- _. intros x O. inversion O. }
  destruct ((at0 s =? 35) && (at1 s =? 102) && tok_end (at2 s)).
  { intro E. apply bind_inv in E as (k & _ & E). injection E as <- _. intros x O. inversion O. }
  pose proof (sym_scan_ok _ s (le_n _)) as F. destruct (sym_scan s) as [raw rest]. cbn [fst] in F. destruct raw as [|c raw]; [discriminate|].
  intro E. injection E as <- _. apply okd_sym. exact (sym_name_ok _ (c :: raw) (le_n _) F).
Qed.
Lemma bs_ok w : forallb (fun c => negb (isspace c || (c =? 40) || (c =? 41) || (c =? 59) || (c =? 0))) (bs w) = true -> Forall okc (bs w).
Proof.
  intro G. rewrite forallb_forall in G. apply Forall_forall. intros c I. specialize (G c I). unfold okc. destruct (isspace c); cbn in G; [discriminate|]. lia.
Qed.
Lemma okd_two w d : Forall okc (bs w) -> okd d -> okd (two w d).
Proof.
  intros F D x O. unfold two in O. inversion O as [| |? ? ? H|? ? ? ? I H|]; subst.
  - now inversion H; subst.
  - destruct I as [<-|[]]. now apply D.
Qed.
Lemma p_unsigned_names neg s d r : p_unsigned neg s = Ok (d, r) -> okd d.
Proof.
  unfold p_unsigned. intro E. apply bind_inv in E as ((ip & s1) & _ & E). apply bind_inv in E as (((f1 & v1) & s2) & _ & E).
  apply bind_inv in E as (((f2 & v2) & s3) & _ & E). destruct f2.
  - injection E as <- _. intros x O. inversion O.
  - apply bind_inv in E as (v & _ & E). injection E as <- _. intros x O. inversion O.
Qed.
Lemma p_number_names s d r : p_number s = Ok (Some (d, r)) -> okd d.
Proof.
  unfold p_number. intro E.
  assert (H : forall neg s', (do x <- p_unsigned neg s'; Ok (Some x)) = Ok (Some (d, r)) -> okd d).
  { intros neg s' F. apply bind_inv in F as ((x & k) & F & G). injection G as -> ->. eapply p_unsigned_names; eauto. }
  destruct (at0 s =? 45); [|destruct (at0 s =? 43); [|destruct (negb (isdigit (at0 s))); [discriminate|eauto]]];
    (destruct (negb (isdigit (at1 s))); [discriminate|]; apply bind_inv in E as (k & _ & E); eauto).
Qed.
Lemma nb_suffix s r : no_braces s -> suffix s r -> no_braces r.
Proof. intros N [p ->] a b E. apply (N (p ++ a) b). rewrite E. now rewrite app_assoc. Qed.
Lemma nb_skip s b : no_braces s -> no_braces (skip_ws b s).
Proof. intro N. eapply nb_suffix; [exact N|apply skip_ws_suffix]. Qed.
Lemma nb_adv s r : no_braces s -> adv s = Ok r -> no_braces r.
Proof. intros N E. destruct s as [|c s]; [discriminate|]. injection E as <-. eapply nb_suffix; [exact N|]. now exists [c]. Qed.
Lemma nb_adv2 s r : no_braces s -> adv2 s = Ok r -> no_braces r.
Proof. intros N E. unfold adv2 in E. apply bind_inv in E as (k & A & E). eauto using nb_adv. Qed.
Lemma nb_expr n s d r : no_braces s -> p_expr n s = Ok (d, r) -> no_braces r.
Proof.
  intros N E. destruct (inv_all n) as (I & _). specialize (I s). rewrite E in I. cbn in I. destruct d.
  - eapply nb_suffix; [exact N|]. now apply consumed_suffix.
  - destruct I as [-> _]. now apply nb_skip.
Qed.
Lemma nb_quote n s d r : no_braces s -> at0 s <> 0 -> p_quote n s = Ok (d, r) -> no_braces r.
Proof. intros N Z E. destruct (inv_all n) as (_ & I & _). specialize (I s Z). rewrite E in I. eapply nb_suffix; [exact N|]. now apply consumed_suffix. Qed.
Lemma nb_unq n s d r : no_braces s -> at0 s <> 0 -> p_unq n s = Ok (d, r) -> no_braces r.
Proof. intros N Z E. destruct (inv_all n) as (_ & _ & I & _). specialize (I s Z). rewrite E in I. eapply nb_suffix; [exact N|]. now apply consumed_suffix. Qed.

Definition names_ok (n : nat) : Prop :=
  (forall s d r, no_braces s -> p_expr n s = Ok (Some d, r) -> okd d) /\
  (forall s d r, no_braces s -> p_quote n s = Ok (d, r) -> okd d) /\
  (forall s d r, no_braces s -> p_unq n s = Ok (d, r) -> okd d) /\
  (forall s els tl r, no_braces s -> p_elems n s = Ok (els, tl, r) -> Forall okd els /\ (forall d, tl = Some d -> okd d)) /\
  (forall s els r, no_braces s -> p_vec n s = Ok (els, r) -> Forall okd els).
Ltac word := apply bs_ok; reflexivity.
Lemma okd_list h r t : okd h -> Forall okd r -> (forall d, t = Some d -> okd d) -> okd (RList h r t).
Proof.
  intros H R T x O. inversion O as [| |? ? ? A|? ? ? d I A|? ? d A]; subst; auto.
  - rewrite Forall_forall in R. now apply (R d).
  - now apply (T d).
Qed.
Lemma okd_build els tl : Forall okd els -> (forall d, tl = Some d -> okd d) -> okd (build_list els tl).
Proof. intros F T. destruct els; cbn; [intros x O; inversion O|]. inversion F; subst. now apply okd_list. Qed.
Lemma okd_vec l : Forall okd l -> okd (RVec l).
Proof. intros F x O. inversion O as [|? d I A| | |]; subst. rewrite Forall_forall in F. now apply (F d). Qed.
Lemma names_comma n s d r : names_ok n -> no_braces s ->
  (if at0 s =? 44 then do '(x, k) <- p_unq n s; Ok (Some x, k) else p_expr n s) = Ok (Some d, r) -> okd d.
Proof.
  intros (I1 & _ & I3 & _) N. destruct (at0 s =? 44); [|now apply I1].
  intro E. apply bind_inv in E as ((x & k) & E & F). injection F as <- _. eauto.
Qed.
Lemma nb_comma n s d r : no_braces s ->
  (if at0 s =? 44 then do '(x, k) <- p_unq n s; Ok (Some x, k) else p_expr n s) = Ok (d, r) -> no_braces r.
Proof.
  intros N. destruct (at0 s =? 44) eqn:Z; [|now apply nb_expr]. apply Z.eqb_eq in Z.
  intro E. apply bind_inv in E as ((x & k) & E & F). injection F as _ <-. eapply nb_unq; [exact N|rewrite Z; discriminate|exact E].
Qed.
Lemma names_all : forall n, names_ok n.
Proof.
  induction n as [|n IH]; [repeat split; intros; discriminate|].
  pose proof IH as (I1 & I2 & I3 & I4 & I5). repeat apply conj.
  - intros s0 d r N0 E. cbn [p_expr] in E. cbv zeta in E. pose proof (nb_skip s0 false N0) as N. clear N0.
    set (s := skip s0) in *. clearbody s. destruct (at0 s =? 0); [discriminate|].
    destruct (at0 s =? 39); [apply bind_inv in E as ((x & k) & E & F); injection F as <- _; eauto|].
    destruct (at0 s =? 96).
    { apply bind_inv in E as (r1 & A & E). apply bind_inv in E as (([x|] & k) & E & F); [|discriminate]. injection F as <- _.
      apply okd_two; [word|]. eapply names_comma; [exact IH|eapply nb_adv; eauto|exact E]. }
    destruct (at0 s =? 40).
    { apply bind_inv in E as (r1 & A & E). destruct (at0 (skip r1) =? 41).
      - apply bind_inv in E as (r2 & B & E). injection E as <- _. intros x O. inversion O.
      - apply bind_inv in E as (((els & tl) & r') & E & F). destruct (negb (at0 r' =? 41)); [discriminate|].
        apply bind_inv in F as (r2 & B & F). injection F as <- _. apply I4 in E as [E1 E2]; [now apply okd_build|]. apply nb_skip. eapply nb_adv; eauto. }
    destruct (at0 s =? 34).
    { apply bind_inv in E as ((x & k) & E & F). injection F as <- _. unfold p_string in E. apply bind_inv in E as (r1 & A & E).
      destruct (str_scan false r1) as [b k']. destruct (negb (at0 k' =? 34)); [discriminate|]. apply bind_inv in E as (k2 & B & E). injection E as <- _. intros x O. inversion O. }
    destruct ((at0 s =? 35) && (at1 s =? 58)).
    { apply bind_inv in E as (r1 & A & E). apply bind_inv in E as ([(x & k)|] & E & F); [|discriminate]. injection F as <- _. eapply p_symbol_names; eauto. }
    destruct ((at0 s =? 35) && (at1 s =? 123)) eqn:C.
    { exfalso. apply andb_true_iff in C as [C D]. apply Z.eqb_eq in C, D. destruct s as [|x [|y s]]; try discriminate. unfold at0, at1 in C, D. cbn in C, D. subst. now apply (N [] s). }
    clear C. destruct ((at0 s =? 35) && (at1 s =? 92)).
    { apply bind_inv in E as ((x & k) & E & F). injection F as <- _. intros y O. inversion O. }
    destruct ((at0 s =? 35) && (at1 s =? 40)).
    { apply bind_inv in E as (r1 & A & E). destruct (at0 (skip r1) =? 41).
      - apply bind_inv in E as (r2 & B & E). injection E as <- _. apply okd_vec. constructor.
      - apply bind_inv in E as ((els & r') & E & F). destruct (negb (at0 r' =? 41)); [discriminate|].
        apply bind_inv in F as (r2 & B & F). injection F as <- _. apply okd_vec. eapply I5; [|exact E]. apply nb_skip. eapply nb_adv2; eauto. }
    assert (NS : forall d r, (do x <- p_number s; match x with Some (d, r) => Ok (Some d, r) | None => do y <- p_symbol s; match y with Some (d, r) => Ok (Some d, r) | None => Err end end) = Ok (Some d, r) -> okd d).
    { clear E. intros d' r' E. apply bind_inv in E as ([(x & k)|] & E & F); [injection F as <- _; now apply (p_number_names s x k)|].
      apply bind_inv in F as ([(x & k)|] & G & F); [|discriminate]. injection F as <- _. now apply (p_symbol_names s x k). }
    destruct ((at0 s =? 49) && ((at1 s =? 43) || (at1 s =? 45)) && tok_end (at2 s)); [|exact (NS _ _ E)].
    apply bind_inv in E as ([(x & k)|] & G & F); [injection F as <- _; now apply (p_symbol_names s x k)|exact (NS _ _ F)].
  - intros s d r N E. cbn [p_quote] in E. apply bind_inv in E as (r1 & A & E). destruct ((at0 r1 =? 35) && (at1 r1 =? 92)).
    + apply bind_inv in E as ((x & k) & E & G). injection G as <- _. apply okd_two; [word|]. intros y O. inversion O.
    + apply bind_inv in E as (([x|] & k) & E & F); [|discriminate]. injection F as <- _. apply okd_two; [word|]. eapply names_comma; [exact IH|eapply nb_adv; eauto|exact E].
  - intros s d r N E. cbn [p_unq] in E. destruct (at1 s =? 64).
    + apply bind_inv in E as (r1 & A & E). apply bind_inv in E as (([x|] & k) & E & F); [|discriminate]. injection F as <- _. apply okd_two; [word|]. eapply I1; [eapply nb_adv2; eauto|exact E].
    + apply bind_inv in E as (r1 & A & E). pose proof (nb_skip r1 false (nb_adv _ _ N A)) as M.
      destruct (at0 (skip r1) =? 39); [|destruct (at0 (skip r1) =? 44)].
      * apply bind_inv in E as ((x & k) & E & F). injection F as <- _. apply okd_two; [word|]. eauto.
      * apply bind_inv in E as ((x & k) & E & F). injection F as <- _. apply okd_two; [word|]. eauto.
      * apply bind_inv in E as (([x|] & k) & E & F); [|discriminate]. injection F as <- _. apply okd_two; [word|]. eauto.
  - intros s els tl r N E. cbn [p_elems] in E. destruct ((at0 s =? 0) || (at0 s =? 41)); [injection E as <- <- _; split; [constructor|discriminate]|].
    apply bind_inv in E as (([d|] & s1) & E & F); [|discriminate].
    assert (D : okd d /\ no_braces s1).
    { destruct (at0 s =? 39) eqn:Z1; [|destruct (at0 s =? 44) eqn:Z2].
      - apply Z.eqb_eq in Z1. apply bind_inv in E as ((x & k) & E & G). injection G as <- <-. split; [eauto|]. eapply nb_quote; [exact N|rewrite Z1; discriminate|exact E].
      - apply Z.eqb_eq in Z2. apply bind_inv in E as ((x & k) & E & G). injection G as <- <-. split; [eauto|]. eapply nb_unq; [exact N|rewrite Z2; discriminate|exact E].
      - split; [eauto|]. eapply nb_expr; eauto. }
    destruct D as [D N1]. cbv zeta in F. pose proof (nb_skip s1 false N1) as N2. destruct ((at0 (skip s1) =? 46) && negb (dot_symbol (skip s1))).
    + apply bind_inv in F as (s3 & A & F). apply bind_inv in F as (([e|] & s5) & F & G); [|discriminate]. injection G as <- <- _.
      split; [constructor; [exact D|constructor]|]. intros d' X. injection X as <-. eapply names_comma; [exact IH| |exact F]. apply nb_skip. eapply nb_adv; eauto.
    + apply bind_inv in F as (((els' & tl') & s3) & F & G). injection G as <- <- _. apply I4 in F as [F1 F2]; [|exact N2]. split; [now constructor|exact F2].
  - intros s els r N E. cbn [p_vec] in E. destruct ((at0 s =? 0) || (at0 s =? 41)); [injection E as <- _; constructor|].
    apply bind_inv in E as (([d|] & s1) & E & F); [|discriminate]. apply bind_inv in F as ((els' & s2) & F & G). injection G as <- _.
    constructor; [eapply names_comma; [exact IH|exact N|exact E]|]. eapply I5; [|exact F]. apply nb_skip. eapply nb_comma; eauto.
Qed.
Lemma names_all_forms : forall n s ds, no_braces s -> p_all n s = Ok ds -> Forall okd ds.
Proof.
  induction n as [|n IH]; intros s ds N E; [discriminate|]. cbn [p_all] in E. destruct (at0 (skip s) =? 0); [injection E as <-; constructor|].
  apply bind_inv in E as (([d|] & r) & E & F).
  - apply bind_inv in F as (ds' & F & G). injection G as <-. constructor; [eapply (proj1 (names_all _)); eauto|]. eapply IH; [|exact F]. apply nb_skip. eapply nb_expr; eauto.
  - destruct (Nat.eqb (Datatypes.length r) (Datatypes.length (skip s))); [discriminate|]. injection F as <-. constructor.
Qed.

(** ** variables *)
Lemma upd_nth {A} (s : list A) i j x : nth_error (EnvModel.upd s i x) j = if Nat.eqb j i then match nth_error s i with Some _ => Some x | None => None end else nth_error s j.
Proof.
  revert i j. induction s as [|y s IH]; intros i j; cbn [EnvModel.upd].
  - destruct i, j; cbn; try reflexivity; destruct (Nat.eqb j i); reflexivity.
  - destruct i, j; cbn; try reflexivity. apply IH.
Qed.
Lemma upd_len {A} (s : list A) i x : length (EnvModel.upd s i x) = length s.
Proof. revert i. induction s as [|y s IH]; intros [|i]; cbn; auto. Qed.
Lemma vrun_snoc ops o s : vrun (ops ++ [o]) s = (fst (vrun ops s) ++ [fst (vstep o (snd (vrun ops s)))], snd (vstep o (snd (vrun ops s)))).
Proof.
  revert s. induction ops as [|p ops IH]; intro s; cbn [app vrun]; [cbn [fst snd]; destruct (vstep o s); reflexivity|].
  destruct (vstep p s) as [a s1]. rewrite IH. destruct (vrun ops s1) as [l s2]. reflexivity.
Qed.
Lemma step_len o s : length (snd (vstep o s)) = (length s + made [o])%nat.
Proof.
  destruct o as [v| |[i|] v|[i|]|[i|]]; cbn; rewrite ?app_length; cbn; try lia.
  - destruct (nth_error s i); cbn; rewrite ?upd_len; lia.
  - destruct (nth_error s i) as [[w|]|]; cbn; lia.
  - destruct (nth_error s i) as [[w|]|]; cbn; lia.
Qed.
Lemma made_cons o l : made (o :: l) = (made l + made [o])%nat. Proof. destruct o; cbn; lia. Qed.
Lemma store_holds : forall l i, nth_error (snd (vrun (rev l) [])) i = holds i l /\ length (snd (vrun (rev l) [])) = made l.
Proof.
  induction l as [|o l IH]; intro i; [cbn; split; [now destruct i|reflexivity]|].
  cbn [rev]. rewrite vrun_snoc. cbn [snd]. set (s := snd (vrun (rev l) [])) in *. assert (L : length s = made l) by apply (IH 0%nat).
  assert (H : forall j, nth_error s j = holds j l) by (intro; apply IH). clearbody s. clear IH. split.
  2:{ rewrite step_len, (made_cons o l). lia. }
  destruct o as [v| |[j|] v|[j|]|[j|]]; cbn [vstep holds].
  - cbn [make_variable snd]. destruct (Nat.eqb_spec i (made l)) as [->|N].
    + rewrite nth_error_app2 by lia. replace (made l - length s)%nat with 0%nat by lia. reflexivity.
    + destruct (Nat.lt_ge_cases i (length s)); [now rewrite nth_error_app1|].
      rewrite <- H. rewrite (proj2 (nth_error_None s i)) by lia. apply nth_error_None. rewrite app_length. cbn. lia.
  - cbn [make_undefined_variable snd]. destruct (Nat.eqb_spec i (made l)) as [->|N].
    + rewrite nth_error_app2 by lia. replace (made l - length s)%nat with 0%nat by lia. reflexivity.
    + destruct (Nat.lt_ge_cases i (length s)); [now rewrite nth_error_app1|].
      rewrite <- H. rewrite (proj2 (nth_error_None s i)) by lia. apply nth_error_None. rewrite app_length. cbn. lia.
  - cbn [variable_set]. destruct (nth_error s j) eqn:E; cbn [snd].
    + rewrite upd_nth. destruct (Nat.eqb_spec i j) as [->|N]; [|apply H]. rewrite <- H, E. reflexivity.
    + destruct (Nat.eqb_spec i j) as [->|N]; [|apply H]. rewrite <- H, E. reflexivity.
  - cbn. apply H.
  - cbn. destruct (nth_error s j) as [[w|]|]; cbn; apply H.
  - cbn. apply H.
  - cbn. destruct (nth_error s j) as [[w|]|]; cbn; apply H.
  - cbn. apply H.
Qed.
