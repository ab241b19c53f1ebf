(** The line editor's test agrees with the reader. *)
From Coq Require Import Lia String.
From Verif Require Import Base NumModel HeapModel StringModel ParseModel ParseSpec ParseProofs ParseProofs2 ParseLocal PrintModel ReplModel ReplSpec.
Local Open Scope list_scope.

Notation bal k s := (balanced k false false false s).
Lemma tame_suffix p s : tame (p ++ s) -> tame s.
Proof. intros T pre c e post ->. apply (T (p ++ pre) c e post). now rewrite app_assoc. Qed.
Lemma tame_tl c s : tame (c :: s) -> tame s. Proof. apply (tame_suffix [c]). Qed.
Lemma tame_hd c e s : tame (c :: e :: s) -> (c = 35 -> e <> 123) /\ (c = 92 -> ~ In e [9; 10; 11; 12; 13; 32; 40; 41; 59]).
Proof. intros T. exact (T [] c e s eq_refl). Qed.
Lemma tame_suf s r : suffix s r -> tame s -> tame r.
Proof. intros (p & ->). apply tame_suffix. Qed.

Definition ord (c : Z) : Prop := c <> 0 /\ c <> 92 /\ c <> 34 /\ c <> 59 /\ c <> 40 /\ c <> 41.
Ltac zb := repeat match goal with
  | |- context [?a =? ?b] => first [rewrite (proj2 (Z.eqb_neq a b)) by lia | rewrite (proj2 (Z.eqb_eq a b)) by lia]
  end.
Lemma bal_ord k c s : ord c -> bal k (c :: s) = bal k s.
Proof. intros (?&?&?&?&?&?). cbn [balanced]. zb. reflexivity. Qed.
Lemma esc_space e : isspace e = true -> In e [9; 10; 11; 12; 13; 32; 40; 41; 59].
Proof. unfold isspace. intro H. apply orb_true_iff in H as [H|H]; [apply Z.eqb_eq in H; subst; cbn; tauto|]. apply andb_true_iff in H as [A B]. apply Z.leb_le in A, B. cbn.
  assert (e = 9 \/ e = 10 \/ e = 11 \/ e = 12 \/ e = 13) by lia. intuition. Qed.

(** blanks and comments *)
Lemma skip_bal : forall m s, (length s <= m)%nat -> tame s ->
  (at0 (skip s) <> 0 -> forall k, bal k s = bal k (skip s)) /\
  (at0 (skip_ws true s) <> 0 -> forall k, balanced k false false true s = bal k (skip_ws true s)).
Proof.
  induction m as [|m IH]; intros s L T.
  - destruct s; [|cbn in L; lia]. split; intros N; exfalso; now apply N.
  - destruct s as [|c s]; [split; intros N; exfalso; now apply N|]. cbn [length] in L. destruct (IH s ltac:(lia) (tame_tl _ _ T)) as [I1 I2]. split.
    + cbn [skip_ws]. destruct (isspace c) eqn:W.
      * intros N k. rewrite bal_ord; [now apply I1|]. unfold ord, isspace in *. lia.
      * destruct (c =? 59) eqn:E; [|reflexivity]. apply Z.eqb_eq in E. subst. intros N k. cbn [balanced]. exact (I2 N k).
    + cbn [skip_ws]. destruct (c =? 0) eqn:E0; [intros N; apply Z.eqb_eq in E0; subst; exfalso; now apply N|].
      destruct (c =? 10) eqn:E10.
      * apply Z.eqb_eq in E10. subst. intros N k. cbn [balanced]. exact (I1 N k).
      * intros N k. cbn [balanced]. rewrite E0. destruct (c =? 92) eqn:E92.
        -- apply Z.eqb_eq in E92. subst. destruct s as [|e s]; [exfalso; now apply N|].
           destruct (tame_hd _ _ _ T) as [_ H]. specialize (H eq_refl). cbn [skip_ws] in *. cbn [balanced].
           destruct (e =? 0) eqn:F0; [apply Z.eqb_eq in F0; subst; exfalso; now apply N|].
           destruct (e =? 10) eqn:F10; [apply Z.eqb_eq in F10; subst; exfalso; apply H; cbn; tauto|].
           cbn [length] in L. destruct (IH s ltac:(lia) (tame_tl _ _ (tame_tl _ _ T))) as [_ J]. exact (J N k).
        -- rewrite E10. exact (I2 N k).
Qed.
Lemma skip_bal1 s k : tame s -> at0 (skip s) <> 0 -> bal k s = bal k (skip s).
Proof. intros T N. now apply (skip_bal (length s) s). Qed.
Lemma skip_end : forall m s, (length s <= m)%nat -> tame s ->
  (at0 (skip s) = 0 -> bal 0 s = true) /\ (at0 (skip_ws true s) = 0 -> balanced 0 false false true s = true).
Proof.
  induction m as [|m IH]; intros s L T.
  - destruct s; [|cbn in L; lia]. split; reflexivity.
  - destruct s as [|c s]; [split; reflexivity|]. cbn [length] in L. destruct (IH s ltac:(lia) (tame_tl _ _ T)) as [I1 I2]. split.
    + cbn [skip_ws]. destruct (isspace c) eqn:W.
      * intros N. rewrite bal_ord; [now apply I1|]. unfold ord, isspace in *. lia.
      * destruct (c =? 59) eqn:E; [apply Z.eqb_eq in E; subst; intros N; cbn [balanced]; exact (I2 N)|].
        intros N. unfold at0 in N. cbn [nth] in N. subst. reflexivity.
    + cbn [skip_ws]. destruct (c =? 0) eqn:E0; [intros _; cbn [balanced]; now rewrite E0|].
      destruct (c =? 10) eqn:E10.
      * apply Z.eqb_eq in E10. subst. intros N. cbn [balanced]. exact (I1 N).
      * intros N. cbn [balanced]. rewrite E0. destruct (c =? 92) eqn:E92.
        -- apply Z.eqb_eq in E92. subst. destruct s as [|e s]; [reflexivity|].
           destruct (tame_hd _ _ _ T) as [_ H]. specialize (H eq_refl). cbn [skip_ws] in *. cbn [balanced].
           destruct (e =? 0) eqn:F0; [reflexivity|].
           destruct (e =? 10) eqn:F10; [apply Z.eqb_eq in F10; subst; exfalso; apply H; cbn; tauto|].
           cbn [length] in L. destruct (IH s ltac:(lia) (tame_tl _ _ (tame_tl _ _ T))) as [_ J]. exact (J N).
        -- rewrite E10. exact (I2 N).
Qed.

(** what a piece of the reader consumed does not change the balance *)
Definition nt (s r : list Z) : Prop := tame r /\ forall k, 0 <= k -> bal k s = bal k r.
Lemma nt_refl s : tame s -> nt s s. Proof. split; auto. Qed.
Lemma nt_trans a b c : nt a b -> nt b c -> nt a c.
Proof. intros [_ A] [T B]. split; [exact T|]. intros k K. rewrite A by exact K. now apply B. Qed.
Lemma nt_ord c s : ord c -> tame (c :: s) -> nt (c :: s) s.
Proof. intros O T. split; [exact (tame_tl _ _ T)|]. intros. now apply bal_ord. Qed.
Lemma nt_adv s r c : at0 s = c -> ord c -> tame s -> adv s = Ok r -> nt s r.
Proof. intros E O T A. destruct s as [|x s]; [discriminate|]. injection A as <-. unfold at0 in E. cbn in E. subst. now apply nt_ord. Qed.
Lemma nt_adv2 s r c e : at0 s = c -> at1 s = e -> ord c -> ord e -> tame s -> adv2 s = Ok r -> nt s r.
Proof.
  intros E F O P T A. destruct s as [|x [|y s]]; try discriminate. injection A as <-. unfold at0, at1 in *. cbn in E, F. subst.
  eapply nt_trans; [now apply nt_ord|]. apply nt_ord; [assumption|exact (tame_tl _ _ T)].
Qed.
Lemma nt_skip s : tame s -> at0 (skip s) <> 0 -> nt s (skip s).
Proof. intros T N. split; [eapply tame_suf; [apply skip_ws_suffix|exact T]|]. intros. now apply skip_bal1. Qed.
Lemma digit_ord c : isdigit c = true -> ord c. Proof. unfold isdigit, ord. lia. Qed.
Lemma alpha_ord c : isalpha c = true -> ord c. Proof. unfold isalpha, isupper, islower, ord. lia. Qed.
Lemma symchar_ord c : symchar c = true -> ord c.
Proof. intro H. apply symchar_iff, ident_char_facts in H. unfold ord. intuition. Qed.
Lemma nt_digits : forall s acc v r, tame s -> int_digits acc s = Ok (v, r) -> nt s r.
Proof.
  induction s as [|c s IH]; intros acc v r T; cbn [int_digits]; [intros [= _ <-]; now apply nt_refl|].
  destruct (isdigit c) eqn:D; [|intros [= _ <-]; now apply nt_refl].
  intro E. apply bind_inv in E as (w & _ & E). eapply nt_trans; [apply nt_ord; [now apply digit_ord|exact T]|]. eapply IH; [exact (tame_tl _ _ T)|exact E].
Qed.
Lemma nt_frac : forall s f d a b r, tame s -> frac_digits f d s = (a, b, r) -> nt s r.
Proof.
  induction s as [|c s IH]; intros f d a b r T; cbn [frac_digits]; [intros [= _ _ <-]; now apply nt_refl|].
  destruct (isdigit c) eqn:D; [|intros [= _ _ <-]; now apply nt_refl].
  intro E. eapply nt_trans; [apply nt_ord; [now apply digit_ord|exact T]|]. eapply IH; [exact (tame_tl _ _ T)|exact E].
Qed.
Ltac ordc := unfold ord; lia.
Lemma nt_tame s r : nt s r -> tame r. Proof. now intros [T _]. Qed.
Lemma nt_unsigned neg s d r : tame s -> p_unsigned neg s = Ok (d, r) -> nt s r.
Proof.
  intros T E. unfold p_unsigned in E. apply bind_inv in E as ((ip & s1) & E1 & E). pose proof (nt_digits _ _ _ _ T E1) as N1.
  apply bind_inv in E as (((isf1 & fv1) & s2) & E2 & E).
  assert (N2 : nt s1 s2).
  { destruct (at0 s1 =? 46) eqn:D; [|injection E2 as <- <- <-; apply nt_refl; exact (nt_tame _ _ N1)].
    apply Z.eqb_eq in D. apply bind_inv in E2 as (s' & A & E2). pose proof (nt_adv _ _ _ D ltac:(ordc) (nt_tame _ _ N1) A) as N.
    destruct (frac_digits dzero (d_of_Z 1) s') as [[fr dv] s''] eqn:F. injection E2 as <- <- <-. eapply nt_trans; [exact N|]. eapply nt_frac; [exact (nt_tame _ _ N)|exact F]. }
  apply bind_inv in E as (((isf2 & fv2) & s3) & E3 & E).
  assert (N3 : nt s2 s3).
  { destruct ((at0 s2 =? 101) || (at0 s2 =? 69)) eqn:D; [|injection E3 as <- <- <-; apply nt_refl; exact (nt_tame _ _ N2)].
    apply bind_inv in E3 as (s' & A & E3).
    assert (N : nt s2 s') by (apply orb_true_iff in D as [D|D]; apply Z.eqb_eq in D; (eapply nt_adv; [exact D|ordc|exact (nt_tame _ _ N2)|exact A])).
    apply bind_inv in E3 as (s'' & A2 & E3).
    assert (N' : nt s' s'').
    { destruct ((at0 s' =? 45) || (at0 s' =? 43)) eqn:D2; [|injection A2 as <-; apply nt_refl; exact (nt_tame _ _ N)].
      apply orb_true_iff in D2 as [D2|D2]; apply Z.eqb_eq in D2; (eapply nt_adv; [exact D2|ordc|exact (nt_tame _ _ N)|exact A2]). }
    destruct (negb (isdigit (at0 s''))); [discriminate|]. apply bind_inv in E3 as ((ex & s''') & A3 & E3). injection E3 as <- <- <-.
    eapply nt_trans; [exact N|]. eapply nt_trans; [exact N'|]. eapply nt_digits; [exact (nt_tame _ _ N')|exact A3]. }
  assert (r = s3) as ->.
  { destruct isf2; [now injection E as _ <-|]. apply bind_inv in E as (v & _ & E). now injection E as _ <-. }
  eapply nt_trans; [exact N1|]. eapply nt_trans; [exact N2|exact N3].
Qed.
Lemma nt_number s d r : tame s -> p_number s = Ok (Some (d, r)) -> nt s r.
Proof.
  intros T. unfold p_number. destruct (at0 s =? 45) eqn:D; [|destruct (at0 s =? 43) eqn:D2].
  - destruct (negb _); [discriminate|]. intro E. apply bind_inv in E as (s' & A & E). apply bind_inv in E as ((d' & r') & U & E). injection E as <- <-.
    apply Z.eqb_eq in D. pose proof (nt_adv _ _ _ D ltac:(ordc) T A) as N. eapply nt_trans; [exact N|]. eapply nt_unsigned; [exact (nt_tame _ _ N)|exact U].
  - destruct (negb _); [discriminate|]. intro E. apply bind_inv in E as (s' & A & E). apply bind_inv in E as ((d' & r') & U & E). injection E as <- <-.
    apply Z.eqb_eq in D2. pose proof (nt_adv _ _ _ D2 ltac:(ordc) T A) as N. eapply nt_trans; [exact N|]. eapply nt_unsigned; [exact (nt_tame _ _ N)|exact U].
  - destruct (negb _); [discriminate|]. intro E. apply bind_inv in E as ((d' & r') & U & E). injection E as <- <-. eapply nt_unsigned; [exact T|exact U].
Qed.
Lemma nt_alpha : forall s, tame s -> nt s (snd (alpha_run s)).
Proof.
  induction s as [|c s IH]; intros T; cbn [alpha_run]; [now apply nt_refl|]. destruct (isalpha c) eqn:A; [|now apply nt_refl].
  specialize (IH (tame_tl _ _ T)). destruct (alpha_run s) as [n k]. cbn [snd] in *. eapply nt_trans; [apply nt_ord; [now apply alpha_ord|exact T]|exact IH].
Qed.
(* a backslash and the byte after it *)
Lemma nt_esc e s : e <> 0 -> tame (92 :: e :: s) -> nt (92 :: e :: s) s.
Proof. intros E T. split; [exact (tame_tl _ _ (tame_tl _ _ T))|]. intros k _. cbn [balanced]. change (92 =? 0) with false. change (92 =? 92) with true. cbn iota. now rewrite (proj2 (Z.eqb_neq e 0) E). Qed.
Lemma nt_char s b r : at0 s = 35 -> at1 s = 92 -> tame s -> p_char s = Ok (b, r) -> nt s r.
Proof.
  intros E F T. destruct s as [|x [|y s]]; unfold at0, at1 in E, F; cbn in E, F; try discriminate. subst. unfold p_char. cbn [adv2 adv bind].
  destruct s as [|c s]; [discriminate|]. unfold at0 at 1. cbn [nth]. destruct (c =? 0) eqn:C0; [discriminate|].
  apply Z.eqb_neq in C0.
  assert (N : nt (35 :: 92 :: c :: s) s) by (eapply nt_trans; [apply nt_ord; [ordc|exact T]|]; apply nt_esc; [exact C0|exact (tame_tl _ _ T)]).
  unfold at0. cbn [nth adv bind]. destruct (isspace c); [intros [= _ <-]; exact N|].
  destruct (isalpha c) eqn:A; [|intros [= _ <-]; exact N].
  assert (M : nt (35 :: 92 :: c :: s) (snd (alpha_run (c :: s)))).
  { cbn [alpha_run]. rewrite A. pose proof (nt_alpha s (nt_tame _ _ N)) as H. destruct (alpha_run s). exact (nt_trans _ _ _ N H). }
  destruct (alpha_run (c :: s)) as [nm rest]. cbn [snd] in M.
  destruct (beq _ _); [intros [= _ <-]; exact M|]. destruct (beq _ _); [intros [= _ <-]; exact M|]. destruct (_ || _); intros [= _ <-]; [exact M|exact N].
Qed.
Lemma scan_bal : forall s e b k d, str_scan e s = (b, k) -> at0 k = 34 -> balanced d true e false s = balanced d true false false k.
Proof.
  induction s as [|c s IH]; intros e b k d; cbn [str_scan]; [intros [= _ <-] H; discriminate H|]. destruct (c =? 0) eqn:C0.
  - intros [= _ <-] H. unfold at0 in H. cbn in H. subst. discriminate.
  - cbn [balanced]. rewrite C0. destruct e.
    + destruct (str_scan false s) as [b' k'] eqn:E. intros [= _ <-] H. exact (IH _ _ _ d E H).
    + destruct (c =? 92).
      * destruct (str_scan true s) as [b' k'] eqn:E. intros [= _ <-] H. exact (IH _ _ _ d E H).
      * destruct (c =? 34) eqn:Q; [intros [= _ <-] H; apply Z.eqb_eq in Q; subst; reflexivity|].
        destruct (str_scan false s) as [b' k'] eqn:E. intros [= _ <-] H. exact (IH _ _ _ d E H).
Qed.
Lemma nt_string s d r : at0 s = 34 -> tame s -> p_string s = Ok (d, r) -> nt s r.
Proof.
  intros E T. destruct s as [|x s]; [discriminate|]. unfold at0 in E. cbn in E. subst. unfold p_string. cbn [adv bind].
  destruct (str_scan false s) as [b k] eqn:S. destruct (at0 k =? 34) eqn:Q; [|discriminate]. cbn [negb]. apply Z.eqb_eq in Q.
  intro A. apply bind_inv in A as (k' & A & B). injection B as _ <-. split.
  - eapply tame_suf; [|exact T]. apply suffix_cons. pose proof (str_scan_suffix s false) as F. rewrite S in F. cbn [snd] in F.
    eapply suffix_trans; [exact F|]. destruct k; [discriminate|]. injection A as <-. apply suffix_cons, suffix_refl.
  - intros d0 K. change (bal d0 (34 :: s)) with (balanced d0 true false false s). rewrite (scan_bal _ _ _ _ d0 S Q). destruct k as [|q k]; [discriminate|]. unfold at0 in Q. cbn in Q. subst. injection A as <-. reflexivity.
Qed.
Lemma nt_scan : forall m s raw rest, (length s <= m)%nat -> tame s -> sym_scan s = (raw, rest) -> nt s rest.
Proof.
  induction m as [|m IH]; intros s raw rest L T E.
  - destruct s; [|cbn in L; lia]. injection E as _ <-. now apply nt_refl.
  - destruct s as [|c s]; [injection E as _ <-; now apply nt_refl|]. cbn [length] in L. cbn [sym_scan] in E.
    destruct (c =? 0); [injection E as _ <-; now apply nt_refl|]. destruct (c =? 92) eqn:B.
    + apply Z.eqb_eq in B. subst. destruct s as [|c2 s].
      * injection E as _ <-. split; [exact (tame_tl _ _ T)|]. reflexivity.
      * cbn [length] in L. destruct (tame_hd _ _ _ T) as [_ H]. specialize (H eq_refl). destruct (esc_ok c2) eqn:K.
        -- destruct (sym_scan s) as [n k] eqn:F. injection E as _ <-.
           assert (c2 <> 0) by (intros ->; discriminate K). eapply nt_trans; [apply nt_esc; [assumption|exact T]|].
           eapply (IH s); [lia|exact (tame_tl _ _ (tame_tl _ _ T))|exact F].
        -- assert (c2 = 0) as ->.
           { unfold esc_ok in K. apply negb_false_iff in K. apply orb_true_iff in K as [K|K]; [|apply Z.eqb_eq in K; subst; exfalso; apply H; cbn; tauto].
             apply orb_true_iff in K as [K|K]; [|apply Z.eqb_eq in K; subst; exfalso; apply H; cbn; tauto].
             apply orb_true_iff in K as [K|K]; [|apply Z.eqb_eq in K; subst; exfalso; apply H; cbn; tauto].
             apply orb_true_iff in K as [K|K]; [now apply Z.eqb_eq in K|]. exfalso. apply H. now apply esc_space. }
           cbn [sym_scan] in E. change (0 =? 0) with true in E. cbn iota in E. injection E as _ <-. split; [exact (tame_tl _ _ T)|]. reflexivity.
    + destruct (symchar c) eqn:Y; [|injection E as _ <-; now apply nt_refl].
      destruct (sym_scan s) as [n k] eqn:F. injection E as _ <-. eapply nt_trans; [apply nt_ord; [now apply symchar_ord|exact T]|].
      eapply (IH s); [lia|exact (tame_tl _ _ T)|exact F].
Qed.
Lemma nt_symbol s d r : tame s -> p_symbol s = Ok (Some (d, r)) -> nt s r.
Proof.
  intros T. unfold p_symbol.
  destruct ((at0 s =? 35) && (at1 s =? 116) && tok_end (at2 s)) eqn:A.
  - intro E. apply bind_inv in E as (k & A2 & E). injection E as _ <-. apply andb_true_iff in A as [A _]. apply andb_true_iff in A as [A B]. apply Z.eqb_eq in A, B.
    eapply nt_adv2; [exact A|exact B|ordc|ordc|exact T|exact A2].
  - clear A. destruct ((at0 s =? 35) && (at1 s =? 102) && tok_end (at2 s)) eqn:A.
    + intro E. apply bind_inv in E as (k & A2 & E). injection E as _ <-. apply andb_true_iff in A as [A _]. apply andb_true_iff in A as [A B]. apply Z.eqb_eq in A, B.
      eapply nt_adv2; [exact A|exact B|ordc|ordc|exact T|exact A2].
    + destruct (sym_scan s) as [raw rest] eqn:E. destruct raw; [discriminate|]. intros [= _ <-]. eapply (nt_scan (length s)); [lia|exact T|exact E].
Qed.

(** the five mutually recursive functions *)
Definition ntb (n : nat) : Prop :=
  (forall s d r, tame s -> p_expr n s = Ok (Some d, r) -> nt s r) /\
  (forall s d r, tame s -> at0 s = 39 -> p_quote n s = Ok (d, r) -> nt s r) /\
  (forall s d r, tame s -> at0 s = 44 -> p_unq n s = Ok (d, r) -> nt s r) /\
  (forall s d t r, tame s -> p_elems n s = Ok (d, t, r) -> at0 r = 41 -> nt s r) /\
  (forall s d r, tame s -> p_vec n s = Ok (d, r) -> at0 r = 41 -> nt s r).
Lemma comma_or n s d r : ntb n -> tame s ->
  (if at0 s =? 44 then do '(x, k) <- p_unq n s; Ok (Some x, k) else p_expr n s) = Ok (Some d, r) -> nt s r.
Proof.
  intros (I1 & _ & I3 & _) T. destruct (at0 s =? 44) eqn:D; [|now apply I1]. apply Z.eqb_eq in D.
  intro E. apply bind_inv in E as ((x & k) & E & F). injection F as _ <-. now apply (I3 s x).
Qed.
Lemma paren_nt s r r' r'' : at0 s = 40 -> tame s -> adv s = Ok r -> (tame r -> nt r r') -> at0 r' = 41 -> adv r' = Ok r'' -> nt s r''.
Proof.
  intros E T A N F B. destruct s as [|x s]; [discriminate|]. unfold at0 in E. cbn in E. subst. injection A as <-. specialize (N (tame_tl _ _ T)) as [T' N].
  destruct r' as [|y r']; [discriminate|]. unfold at0 in F. cbn in F. subst. injection B as <-. split; [exact (tame_tl _ _ T')|].
  intros k K. change (bal k (40 :: s)) with (bal (k + 1) s). rewrite N by lia.
  change (bal (k + 1) (41 :: r')) with (if k + 1 - 1 <? 0 then false else bal (k + 1 - 1) r').
  replace (k + 1 - 1) with k by lia. now rewrite (proj2 (Z.ltb_ge k 0) K).
Qed.
Lemma skip_eq41 s : at0 (skip s) = 41 -> at0 (skip s) <> 0. Proof. intros ->. discriminate. Qed.
Lemma ntb_all : forall n, ntb n.
Proof.
  induction n as [|n IH]; [repeat split; intros; discriminate|].
  pose proof IH as (I1 & I2 & I3 & I4 & I5). repeat apply conj.
  - intros s0 d r T0 E. cbn [p_expr] in E. cbv zeta in E.
    destruct (at0 (skip s0) =? 0) eqn:C0; [discriminate|]. apply Z.eqb_neq in C0.
    pose proof (nt_skip s0 T0 C0) as N0. eapply nt_trans; [exact N0|]. pose proof (nt_tame _ _ N0) as T. clear N0 T0.
    set (s := skip s0) in *. clearbody s.
    destruct (at0 s =? 39) eqn:C; [apply Z.eqb_eq in C; apply bind_inv in E as ((x & k) & E & F); injection F as _ <-; now apply (I2 s x)|]. clear C.
    destruct (at0 s =? 96) eqn:C.
    { apply Z.eqb_eq in C. apply bind_inv in E as (r1 & A & E). pose proof (nt_adv _ _ _ C ltac:(ordc) T A) as N.
      apply bind_inv in E as (([x|] & k) & E & F); [|discriminate]. injection F as _ <-. eapply nt_trans; [exact N|]. eapply comma_or; [exact IH|exact (nt_tame _ _ N)|exact E]. }
    clear C. destruct (at0 s =? 40) eqn:C.
    { apply Z.eqb_eq in C. apply bind_inv in E as (r1 & A & E). destruct (at0 (skip r1) =? 41) eqn:D.
      - apply Z.eqb_eq in D. apply bind_inv in E as (r2 & B & E). injection E as _ <-.
        eapply (paren_nt s r1 (skip r1)); eauto. intros Tr. apply nt_skip; [exact Tr|rewrite D; discriminate].
      - apply bind_inv in E as (((els & tl) & r') & E & F). destruct (at0 r' =? 41) eqn:G; [|discriminate]. cbn [negb] in F. apply Z.eqb_eq in G.
        apply bind_inv in F as (r2 & B & F). injection F as _ <-. eapply (paren_nt s r1 r'); eauto. intros Tr.
        assert (Z : at0 (skip r1) <> 0).
        { intro Z. destruct n; [discriminate|]. cbn [p_elems] in E. rewrite Z in E. cbn in E. injection E as _ _ <-. rewrite Z in G. discriminate. }
        pose proof (nt_skip r1 Tr Z) as N. eapply nt_trans; [exact N|]. eapply I4; [exact (nt_tame _ _ N)|exact E|exact G]. }
    clear C. destruct (at0 s =? 34) eqn:C.
    { apply Z.eqb_eq in C. apply bind_inv in E as ((x & k) & E & F). injection F as _ <-. now apply (nt_string s x). }
    clear C. destruct ((at0 s =? 35) && (at1 s =? 58)) eqn:C.
    { apply andb_true_iff in C as [C D]. apply Z.eqb_eq in C, D. apply bind_inv in E as (r1 & A & E). pose proof (nt_adv2 _ _ _ _ C D ltac:(ordc) ltac:(ordc) T A) as N.
      apply bind_inv in E as ([(x & k)|] & E & F); [|discriminate]. injection F as _ <-. eapply nt_trans; [exact N|]. eapply nt_symbol; [exact (nt_tame _ _ N)|exact E]. }
    clear C. destruct ((at0 s =? 35) && (at1 s =? 123)) eqn:C.
    { exfalso. apply andb_true_iff in C as [C D]. apply Z.eqb_eq in C, D. destruct s as [|x [|y s]]; try discriminate. unfold at0, at1 in C, D. cbn in C, D. subst.
      destruct (tame_hd _ _ _ T) as [H _]. now apply H. }
    clear C. destruct ((at0 s =? 35) && (at1 s =? 92)) eqn:C.
    { apply andb_true_iff in C as [C D]. apply Z.eqb_eq in C, D. apply bind_inv in E as ((x & k) & E & F). injection F as _ <-. now apply (nt_char s x). }
    clear C. destruct ((at0 s =? 35) && (at1 s =? 40)) eqn:C.
    { apply andb_true_iff in C as [C D]. apply Z.eqb_eq in C, D. destruct s as [|x [|y s]]; try discriminate. unfold at0, at1 in C, D. cbn in C, D. subst.
      apply bind_inv in E as (r1 & A & E). injection A as <-.
      eapply nt_trans; [apply nt_ord; [ordc|exact T]|]. apply tame_tl in T.
      destruct (at0 (skip s) =? 41) eqn:D.
      - apply Z.eqb_eq in D. apply bind_inv in E as (r2 & B & E). injection E as _ <-.
        eapply (paren_nt (40 :: s) s (skip s)); eauto. intros Tr. apply nt_skip; [exact Tr|rewrite D; discriminate].
      - apply bind_inv in E as ((els & r') & E & F). destruct (at0 r' =? 41) eqn:G; [|discriminate]. cbn [negb] in F. apply Z.eqb_eq in G.
        apply bind_inv in F as (r2 & B & F). injection F as _ <-. eapply (paren_nt (40 :: s) s r'); eauto. intros Tr.
        assert (Z : at0 (skip s) <> 0).
        { intro Z. destruct n; [discriminate|]. cbn [p_vec] in E. rewrite Z in E. cbn in E. injection E as _ <-. rewrite Z in G. discriminate. }
        pose proof (nt_skip s Tr Z) as N. eapply nt_trans; [exact N|]. eapply I5; [exact (nt_tame _ _ N)|exact E|exact G]. }
    assert (NS : forall d r, (do x <- p_number s; match x with Some (d, r) => Ok (Some d, r) | None => do y <- p_symbol s; match y with Some (d, r) => Ok (Some d, r) | None => Err end end) = Ok (Some d, r) -> nt s r).
    { clear E. intros d' r' E. apply bind_inv in E as ([(x & k)|] & E & F); [injection F as _ <-; now apply (nt_number s x)|].
      apply bind_inv in F as ([(x & k)|] & G & F); [|discriminate]. injection F as _ <-. now apply (nt_symbol s x). }
    clear C. destruct ((at0 s =? 49) && ((at1 s =? 43) || (at1 s =? 45)) && tok_end (at2 s)); [|exact (NS _ _ E)].
    apply bind_inv in E as ([(x & k)|] & G & F); [injection F as _ <-; now apply (nt_symbol s x)|exact (NS _ _ F)].
  - intros s d r T C E. cbn [p_quote] in E. apply bind_inv in E as (r1 & A & E). pose proof (nt_adv _ _ _ C ltac:(ordc) T A) as N.
    eapply nt_trans; [exact N|]. apply nt_tame in N. destruct ((at0 r1 =? 35) && (at1 r1 =? 92)) eqn:D.
    + apply andb_true_iff in D as [D F]. apply Z.eqb_eq in D, F. apply bind_inv in E as ((x & k) & E & G). injection G as _ <-. now apply (nt_char r1 x).
    + apply bind_inv in E as (([x|] & k) & E & F); [|discriminate]. injection F as _ <-. eapply comma_or; [exact IH|exact N|exact E].
  - intros s d r T C E. cbn [p_unq] in E. destruct (at1 s =? 64) eqn:D.
    + apply Z.eqb_eq in D. apply bind_inv in E as (r1 & A & E). pose proof (nt_adv2 _ _ _ _ C D ltac:(ordc) ltac:(ordc) T A) as N.
      apply bind_inv in E as (([x|] & k) & E & F); [|discriminate]. injection F as _ <-. eapply nt_trans; [exact N|]. eapply I1; [exact (nt_tame _ _ N)|exact E].
    + apply bind_inv in E as (r1 & A & E). pose proof (nt_adv _ _ _ C ltac:(ordc) T A) as N. eapply nt_trans; [exact N|]. apply nt_tame in N.
      destruct (at0 (skip r1) =? 39) eqn:D1; [|destruct (at0 (skip r1) =? 44) eqn:D2].
      * apply Z.eqb_eq in D1. assert (Z : at0 (skip r1) <> 0) by (rewrite D1; discriminate). pose proof (nt_skip r1 N Z) as M. eapply nt_trans; [exact M|].
        apply bind_inv in E as ((x & k) & E & F). injection F as _ <-. eapply I2; [exact (nt_tame _ _ M)|exact D1|exact E].
      * apply Z.eqb_eq in D2. assert (Z : at0 (skip r1) <> 0) by (rewrite D2; discriminate). pose proof (nt_skip r1 N Z) as M. eapply nt_trans; [exact M|].
        apply bind_inv in E as ((x & k) & E & F). injection F as _ <-. eapply I3; [exact (nt_tame _ _ M)|exact D2|exact E].
      * apply bind_inv in E as (([x|] & k) & E & F); [|discriminate]. injection F as _ <-.
        destruct (Z.eq_dec (at0 (skip r1)) 0) as [Z|Z].
        -- exfalso. destruct n; [discriminate|]. cbn [p_expr] in E. assert (S : at0 (skip (skip r1)) = 0).
           { destruct (skip r1) as [|c q] eqn:Q; [reflexivity|]. unfold at0 in Z. cbn in Z. subst. reflexivity. }
           rewrite S in E. discriminate E.
        -- pose proof (nt_skip r1 N Z) as M. eapply nt_trans; [exact M|]. eapply I1; [exact (nt_tame _ _ M)|exact E].
  - intros s d t r T E G. cbn [p_elems] in E. destruct ((at0 s =? 0) || (at0 s =? 41)); [injection E as _ _ <-; now apply nt_refl|].
    apply bind_inv in E as ((d1 & s1) & E1 & E).
    destruct d1 as [d1|]; [|discriminate].
    assert (N1 : nt s s1).
    { destruct (at0 s =? 39) eqn:C.
      - apply Z.eqb_eq in C. apply bind_inv in E1 as ((x & k) & E1 & F). injection F as _ <-. now apply (I2 s x).
      - eapply comma_or; [exact IH|exact T|exact E1]. }
    eapply nt_trans; [exact N1|]. apply nt_tame in N1. cbv zeta in E.
    destruct ((at0 (skip s1) =? 46) && negb (dot_symbol (skip s1))) eqn:D.
    + apply andb_true_iff in D as [D _]. apply Z.eqb_eq in D. assert (Z : at0 (skip s1) <> 0) by (rewrite D; discriminate).
      pose proof (nt_skip s1 N1 Z) as M1. eapply nt_trans; [exact M1|]. apply nt_tame in M1.
      apply bind_inv in E as (s3 & A & E). pose proof (nt_adv _ _ _ D ltac:(ordc) M1 A) as M2. eapply nt_trans; [exact M2|]. apply nt_tame in M2.
      apply bind_inv in E as (([e|] & s5) & E2 & E); [|discriminate]. injection E as _ _ <-.
      assert (Z4 : at0 (skip s3) <> 0).
      { intro Z4. assert (Q : at0 (skip (skip s3)) = 0) by (destruct (skip s3) as [|c q]; [reflexivity|]; unfold at0 in Z4; cbn in Z4; subst; reflexivity).
        rewrite (proj2 (Z.eqb_neq (at0 (skip s3)) 44)) in E2 by (rewrite Z4; discriminate). destruct n; [discriminate|]. cbn [p_expr] in E2. rewrite Q in E2. discriminate E2. }
      pose proof (nt_skip s3 M2 Z4) as M3. eapply nt_trans; [exact M3|]. apply nt_tame in M3.
      pose proof (comma_or n _ _ _ IH M3 E2) as M4. eapply nt_trans; [exact M4|]. apply nt_skip; [exact (nt_tame _ _ M4)|]. rewrite G. discriminate.
    + apply bind_inv in E as (((els & tl) & s3) & E2 & E). injection E as _ _ <-.
      assert (Z : at0 (skip s1) <> 0).
      { intro Z. destruct n; [discriminate|]. cbn [p_elems] in E2. rewrite Z in E2. cbn in E2. injection E2 as _ _ <-. rewrite Z in G. discriminate. }
      pose proof (nt_skip s1 N1 Z) as M1. eapply nt_trans; [exact M1|]. eapply I4; [exact (nt_tame _ _ M1)|exact E2|exact G].
  - intros s d r T E G. cbn [p_vec] in E. destruct ((at0 s =? 0) || (at0 s =? 41)); [injection E as _ <-; now apply nt_refl|].
    apply bind_inv in E as (([d1|] & s1) & E1 & E); [|discriminate]. pose proof (comma_or n _ _ _ IH T E1) as N1. eapply nt_trans; [exact N1|]. apply nt_tame in N1.
    apply bind_inv in E as ((els & s2) & E2 & E). injection E as _ <-.
    assert (Z : at0 (skip s1) <> 0).
    { intro Z. destruct n; [discriminate|]. cbn [p_vec] in E2. rewrite Z in E2. cbn in E2. injection E2 as _ <-. rewrite Z in G. discriminate. }
    pose proof (nt_skip s1 N1 Z) as M1. eapply nt_trans; [exact M1|]. eapply I5; [exact (nt_tame _ _ M1)|exact E2|exact G].
Qed.
Lemma parse_balanced s d : tame s -> parse s = Ok d -> is_balanced s = true.
Proof.
  intros T E. unfold parse in E. apply bind_inv in E as (([x|] & r) & E & F); [|discriminate]. unfold parse_expr in E.
  pose proof (proj1 (ntb_all _) s x r T E) as [T' N]. unfold is_balanced. rewrite N by lia.
  destruct (at0 (skip r) =? 0) eqn:Z; [|discriminate]. apply Z.eqb_eq in Z. now apply (skip_end (length r) r).
Qed.

(** printed data *)
Definition neu (t : list Z) : Prop := forall k r, 0 <= k -> bal k (t ++ r) = bal k r.
Lemma neu_nil : neu []. Proof. intros k r _. reflexivity. Qed.
Lemma neu_app a b : neu a -> neu b -> neu (a ++ b).
Proof. intros A B k r K. rewrite <- app_assoc. rewrite A by exact K. now apply B. Qed.
Lemma neu_ord1 c t : ord c -> neu t -> neu (c :: t).
Proof. intros O N k r K. cbn [app]. rewrite bal_ord by exact O. now apply N. Qed.
Lemma neu_ord t : Forall ord t -> neu t.
Proof. induction 1; [apply neu_nil|now apply neu_ord1]. Qed.
Lemma neu_paren t : neu t -> neu (40 :: t ++ [41]).
Proof.
  intros N k r K. cbn [app]. rewrite <- app_assoc. cbn [app].
  change (bal k (40 :: t ++ 41 :: r)) with (bal (k + 1) (t ++ 41 :: r)). rewrite N by lia.
  change (bal (k + 1) (41 :: r)) with (if k + 1 - 1 <? 0 then false else bal (k + 1 - 1) r).
  replace (k + 1 - 1) with k by lia. now rewrite (proj2 (Z.ltb_ge k 0) K).
Qed.
Lemma ord_bs w : forallb (fun c => negb ((c =? 0) || (c =? 92) || (c =? 34) || (c =? 59) || (c =? 40) || (c =? 41))) (bs w) = true -> Forall ord (bs w).
Proof. intro H. apply Forall_forall. intros c I. rewrite forallb_forall in H. specialize (H c I). unfold ord. lia. Qed.
Lemma digits_ord l : Forall digit l -> Forall ord l.
Proof. apply Forall_impl. unfold digit, ord. lia. Qed.
Lemma dec_ord z : Forall ord (dec z).
Proof.
  unfold dec. destruct (Z.ltb_spec z 0).
  - constructor; [ordc|]. destruct (dec_nat_digits (- z) ltac:(lia)) as (c & l & -> & D & F). apply digits_ord. now constructor.
  - destruct (dec_nat_digits z ltac:(lia)) as (c & l & -> & D & F). apply digits_ord. now constructor.
Qed.
Lemma neu_char b : b <> 0 -> neu (print_char b).
Proof.
  intros N k r K. unfold print_char. destruct (b =? 32); [reflexivity|]. destruct (b =? 10); [reflexivity|]. destruct (b =? 9); [reflexivity|].
  cbn [app]. rewrite bal_ord by ordc. cbn [balanced]. change (92 =? 0) with false. change (92 =? 92) with true. cbn iota. now rewrite (proj2 (Z.eqb_neq b 0) N).
Qed.
Lemma str_bal : forall s k r, Forall (fun b => 0 <= b <= 255) s -> balanced k true false false (flat_map str_byte s ++ r) = balanced k true false false r.
Proof.
  induction s as [|c s IH]; intros k r F; [reflexivity|]. inversion F as [|? ? Fc Fs]; subst. cbn [flat_map]. rewrite <- app_assoc.
  assert (G : forall x l, x <> 0 -> x <> 92 -> x <> 34 -> balanced k true false false (x :: l) = balanced k true false false l).
  { intros x l A B C. cbn [balanced]. zb. reflexivity. }
  assert (H : forall e l, e <> 0 -> balanced k true false false (92 :: e :: l) = balanced k true false false l).
  { intros e l A. cbn [balanced]. change (92 =? 0) with false. change (92 =? 92) with true. cbn iota. now rewrite (proj2 (Z.eqb_neq e 0) A). }
  destruct (str_byte_cases c Fc) as [(E & _ & A & B & C)|[(e & E & _ & _ & A)|(x & y & z & E & _ & X & Y & Z)]]; rewrite E; cbn [app].
  - rewrite G by auto. now apply IH.
  - rewrite H by auto. now apply IH.
  - rewrite H by lia. rewrite !G by lia. now apply IH.
Qed.
Lemma neu_str s : Forall (fun b => 0 <= b <= 255) s -> neu (print_str s).
Proof.
  intros F k r K. unfold print_str. cbn [app]. rewrite <- app_assoc. cbn [app].
  change (bal k (34 :: flat_map str_byte s ++ 34 :: r)) with (balanced k true false false (flat_map str_byte s ++ 34 :: r)). rewrite str_bal by exact F. reflexivity.
Qed.
Lemma neu_seq pf qq uq l : Forall (fun d => neu (print pf true qq uq d)) l -> neu (seq pf qq uq l).
Proof. induction 1; cbn [seq]; [apply neu_nil|]. apply neu_ord1; [ordc|]. now apply neu_app. Qed.
Lemma word_paren w t : Forall ord (bs w) -> neu t -> neu ((40 :: bs w) ++ t ++ [41]).
Proof. intros O N. change ((40 :: bs w) ++ t ++ [41]) with (40 :: bs w ++ t ++ [41]). rewrite app_assoc. apply neu_paren. apply neu_app; [now apply neu_ord|exact N]. Qed.
Lemma plain_neu pf : forall d, plain d -> forall qq uq, neu (print pf true qq uq d).
Proof.
  induction d as [z|f|a b|b|b|n|s| |l IH|h l t IHh IHl IHt] using rdatum_ind'; intros P qq uq; inversion P; subst.
  - apply neu_ord, dec_ord.
  - apply neu_char. lia.
  - cbn [print]. destruct b; apply neu_ord, ord_bs; reflexivity.
  - cbn [print]. apply neu_ord. destruct H0 as (F & N & _ & C & _). destruct n as [|c n]; [congruence|]. cbn [print_sym].
    destruct (Z.eqb_spec c 58) as [-> |]; [now elim (C n)|]. eapply Forall_impl; [|exact F]. intros x X. apply symchar_ord. now apply symchar_iff.
  - cbn [print]. apply neu_str. eapply Forall_impl; [|eassumption]; cbn; intros; lia.
  - cbn [print]. intros k r K. change (bs "()" ++ r) with (40 :: [] ++ 41 :: r). apply (neu_paren [] neu_nil k r K).
  - assert (G : Forall (fun d => neu (print pf true qq uq d)) l).
    { apply Forall_forall. intros x I. rewrite Forall_forall in IH. apply IH; auto. rewrite Forall_forall in H0. auto. }
    destruct l as [|x l].
    + cbn [print]. change (bs "#()") with (35 :: 40 :: [] ++ [41]). apply neu_ord1; [ordc|]. apply neu_paren, neu_nil.
    + rewrite print_vec, go_seq. inversion G; subst. change (neu (35 :: 40 :: print pf true qq uq x ++ seq pf qq uq l ++ [41])).
      apply neu_ord1; [ordc|]. rewrite app_assoc. apply neu_paren. apply neu_app; [assumption|]. now apply neu_seq.
  - cbn [print]. rewrite !starts_with_false by (auto; cbn; tauto). rewrite go_seq.
    assert (G : Forall (fun d => neu (print pf true qq uq d)) l).
    { apply Forall_forall. intros x I. rewrite Forall_forall in IHl. apply IHl; auto. rewrite Forall_forall in H4. auto. }
    rewrite app_assoc. apply neu_paren. apply neu_app; [now apply IHh|now apply neu_seq].
  - rename t0 into t. cbn [print]. rewrite !starts_with_false by (auto; cbn; tauto). rewrite !go_seq.
    assert (G : Forall (fun d => neu (print pf true qq uq d)) l).
    { apply Forall_forall. intros x I. rewrite Forall_forall in IHl. apply IHl; auto. rewrite Forall_forall in H4. auto. }
    assert (Eq : match t with RList h2 r2 None => 32 :: print pf true qq uq h2 ++ (fix go l := match l with [] => [] | x :: r => 32 :: print pf true qq uq x ++ go r end) r2 ++ [41] | _ => bs " . " ++ print pf true qq uq t ++ [41] end = bs " . " ++ print pf true qq uq t ++ [41]).
    { destruct t as [| | | | | | | | |h2 r2 [t2|]]; auto. elim H6. now exists h2, r2. }
    match goal with |- neu (40 :: ?a ++ ?b ++ ?m) => replace m with (bs " . " ++ print pf true qq uq t ++ [41]) by (symmetry; exact Eq) end.
    rewrite !app_assoc. apply neu_paren. apply neu_app; [|eapply IHt; eauto]. apply neu_app; [|apply neu_ord, ord_bs; reflexivity].
    apply neu_app; [now apply IHh|now apply neu_seq].
  - rename d into x. assert (GX : forall q u, neu (print pf true q u x)) by (intros; inversion IHl; subst; auto).
    destruct H1 as [-> |[-> |[-> | ->]]]; cbn [print starts_with];
    repeat match goal with |- context [beq ?a ?b] => let v := eval vm_compute in (beq a b) in change (beq a b) with v; cbn iota end.
    + destruct (qq && negb uq); [apply neu_ord1; [ordc|apply GX]|].
      apply (word_paren "quote"%string (32 :: print pf true qq uq x)); [apply ord_bs; reflexivity|]. apply neu_ord1; [ordc|apply GX].
    + apply (word_paren "quasiquote "%string (print pf true true uq x)); [apply ord_bs; reflexivity|]. apply GX.
    + apply (word_paren "unquote"%string (32 :: print pf true qq true x)); [apply ord_bs; reflexivity|]. apply neu_ord1; [ordc|apply GX].
    + apply (word_paren "unquote-splicing"%string (32 :: print pf true qq uq x)); [apply ord_bs; reflexivity|]. apply neu_ord1; [ordc|apply GX].
Qed.

(** texts with parentheses as the only special bytes *)
Lemma simple_tl c s : simple_text (c :: s) -> simple_text s. Proof. intros H x I. apply H. now right. Qed.
Lemma simple_hd c s : simple_text (c :: s) -> c <> 0 /\ c <> 92 /\ c <> 34 /\ c <> 59. Proof. intros H. apply H. now left. Qed.
Lemma simple_app a b : simple_text (a ++ b) <-> simple_text a /\ simple_text b.
Proof. unfold simple_text. split; [intros H; split; intros c I; apply H, in_or_app; auto|]. intros [A B] c I. apply in_app_or in I as [I|I]; auto. Qed.
Lemma matched_neu s : matched s -> simple_text s -> neu s.
Proof.
  induction 1 as [|c s A B M IH|s t M1 I1 M2 I2]; intros H.
  - apply neu_nil.
  - destruct (simple_hd _ _ H) as (?&?&?&?). apply neu_ord1; [unfold ord; auto 10|]. apply IH. exact (simple_tl _ _ H).
  - apply simple_tl, simple_app in H as [H1 H2]. apply simple_tl in H2.
    replace (40 :: s ++ 41 :: t) with ((40 :: s ++ [41]) ++ t) by (cbn [app]; rewrite <- app_assoc; reflexivity).
    apply neu_app; auto. apply neu_paren; auto.
Qed.
(* the text closes k parentheses more than it opens, and matches otherwise *)
Inductive closes : nat -> list Z -> Prop :=
| cl_0 : forall s, matched s -> closes 0 s
| cl_S : forall n s t, matched s -> closes n t -> closes (S n) (s ++ 41 :: t).
Lemma matched_cons_closes n c s : c <> 40 -> c <> 41 -> closes n s -> closes n (c :: s).
Proof. intros A B H. destruct H; [apply cl_0; now constructor|]. apply (cl_S n (c :: s) t); auto. now constructor. Qed.
Lemma closes_open n s : closes (S n) s -> closes n (40 :: s).
Proof.
  inversion 1 as [|? p t M C]; subst. inversion C as [q Mq|m q u Mq Cu]; subst.
  - apply cl_0. now constructor.
  - replace (40 :: p ++ 41 :: q ++ 41 :: u) with ((40 :: p ++ 41 :: q) ++ 41 :: u) by (cbn [app]; now rewrite <- app_assoc).
    apply cl_S; [now constructor|exact Cu].
Qed.
Lemma bal_closes : forall s k, simple_text s -> 0 <= k -> (bal k s = true <-> closes (Z.to_nat k) s).
Proof.
  induction s as [|c s IH]; intros k H K.
  - cbn [balanced]. rewrite Z.eqb_eq. split; [intros ->; apply cl_0, mat_nil|].
    inversion 1 as [? M E1|m a b M C E1 E2]; [lia|]. destruct a; discriminate.
  - destruct (simple_hd _ _ H) as (h1&h2&h3&h4). pose proof (simple_tl _ _ H) as H'.
    destruct (Z.eq_dec c 40) as [-> |N1].
    + change (bal k (40 :: s)) with (bal (k + 1) s). rewrite (IH (k + 1)) by (auto; lia). replace (Z.to_nat (k + 1)) with (S (Z.to_nat k)) by lia.
      split; [apply closes_open|]. intro C. generalize dependent (Z.to_nat k). intros n C. inversion C as [? M E1 E2|m a b M Cb E1 E2]; subst.
      * inversion M as [|? ? A1 A2 M2 F1|a b Ma Mb F1]; subst; [congruence|]. apply cl_S; auto. now apply cl_0.
      * destruct a as [|x a]; [discriminate|]. injection E2 as -> E2. inversion M as [|? ? A1 A2 M2 F1|u v Mu Mv F1]; subst; [congruence|].
        rewrite <- app_assoc. cbn [app]. apply cl_S; auto. now apply cl_S.
    + destruct (Z.eq_dec c 41) as [-> |N2].
      * change (bal k (41 :: s)) with (if k - 1 <? 0 then false else bal (k - 1) s). destruct (Z.ltb_spec (k - 1) 0) as [L|L].
        -- assert (k = 0) as -> by lia. split; [discriminate|]. cbn [Z.to_nat]. inversion 1 as [? M E1|]; subst. inversion M; congruence.
        -- rewrite IH by (auto; lia). replace (Z.to_nat k) with (S (Z.to_nat (k - 1))) by lia. split.
           ++ intro C. apply (cl_S _ [] s); [apply mat_nil|exact C].
           ++ inversion 1 as [|m a b M C E1 E2]; subst. destruct a as [|x a]; [injection E2 as ->; exact C|]. injection E2 as -> _. inversion M; congruence.
      * rewrite bal_ord by (unfold ord; auto 10). rewrite IH by auto. split; [now apply matched_cons_closes|].
        intro C. inversion C as [? M E1 E2|m a b M Cb E1 E2]; subst.
        -- apply cl_0. inversion M; subst; [assumption|congruence].
        -- destruct a as [|x a]; [injection E2 as E2 _; congruence|]. injection E2 as -> E2. rewrite <- E2. apply cl_S; auto. inversion M; subst; [assumption|congruence].
Qed.
Lemma balanced_matched s : simple_text s -> (is_balanced s = true <-> matched s).
Proof.
  intros H. unfold is_balanced. rewrite (bal_closes s 0 H ltac:(lia)). cbn [Z.to_nat]. split; [now inversion 1|now constructor].
Qed.
Lemma stuck p t : matched p -> simple_text p -> is_balanced (p ++ 41 :: t) = false.
Proof. intros M H. unfold is_balanced. rewrite (matched_neu p M H 0 (41 :: t)) by lia. reflexivity. Qed.
Lemma subs_stuck : forall lines p t, matched p -> simple_text p -> fst (submissions (p ++ 41 :: t) lines) = [].
Proof.
  induction lines as [|l lines IH]; intros p t M H; [reflexivity|]. cbn [submissions]. rewrite <- app_assoc. cbn [app].
  rewrite stuck by auto. now apply IH.
Qed.
Lemma blank_only_iff s : blank_only s = false <-> has_content s.
Proof.
  unfold has_content. induction s as [|c s IH]; cbn [blank_only]; [split; [discriminate|intros (? & [] & _)]|].
  destruct ((c =? 32) || (c =? 9) || (c =? 10) || (c =? 13)) eqn:B.
  - rewrite IH. split; [intros (x & I & X); exists x; split; [now right|exact X]|]. intros (x & [<- |I] & X); [lia|eauto].
  - split; [intros _; exists c; split; [now left|lia]|reflexivity].
Qed.
Lemma subs_lines : forall lines, Forall (fun l => (length l <= 4095)%nat /\ is_balanced l = true /\ has_content l) lines -> submissions [] lines = (lines, []).
Proof.
  induction 1 as [|l lines (L & B & C) F IH]; [reflexivity|]. cbn [submissions app]. unfold fgets_line. rewrite firstn_all2 by lia.
  rewrite B, (proj2 (blank_only_iff l) C), IH. reflexivity.
Qed.
(* lines that only complete the text at their end *)
Lemma subs_group : forall ls buf rest, buf ++ concat ls <> [] -> Forall (fun l => (length l <= 4095)%nat) ls -> ls <> [] ->
  (forall a b, ls = a ++ b -> a <> [] -> b <> [] -> is_balanced (buf ++ concat a) = false) ->
  is_balanced (buf ++ concat ls) = true -> has_content (buf ++ concat ls) ->
  submissions buf (ls ++ rest) = (let '(x, w) := submissions [] rest in ((buf ++ concat ls) :: x, w)).
Proof.
  induction ls as [|l ls IH]; intros buf rest NE F N U B C; [congruence|]. inversion F as [|? ? L F']; subst.
  cbn [app submissions]. unfold fgets_line. rewrite firstn_all2 by lia. destruct ls as [|l2 ls].
  - cbn [concat app] in *. rewrite app_nil_r in *. rewrite B, (proj2 (blank_only_iff _) C). reflexivity.
  - cbn [concat] in *. assert (is_balanced (buf ++ l) = false) as ->.
    { rewrite <- (U [l] (l2 :: ls) eq_refl) by discriminate. cbn [concat]. now rewrite app_nil_r. }
    rewrite IH; [rewrite <- !app_assoc; reflexivity| | | | | |]; rewrite <- ?app_assoc; auto; try discriminate.
    intros a b E A Bn. rewrite <- app_assoc. apply (U (l :: a) b); [cbn [app]; now rewrite <- E|discriminate|exact Bn].
Qed.
