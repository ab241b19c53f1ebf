(** C192, C193: which texts string->number takes for an integer. *)
From Coq Require Import String Lia.
From Verif Require Import Base ParseModel NumModel StrNumModel.
Local Open Scope string_scope.
Local Open Scope Z_scope.
Local Open Scope list_scope.

(** ** specification *)
Definition lower36 : list Z := bs "0123456789abcdefghijklmnopqrstuvwxyz".
Definition upper36 : list Z := bs "0123456789ABCDEFGHIJKLMNOPQRSTUVWXYZ".
(* the character c is a digit of value d in this radix *)
Definition digit_in (r : Z) (c d : Z) : Prop :=
  0 <= d < r /\ (nth_error lower36 (Z.to_nat d) = Some c \/ nth_error upper36 (Z.to_nat d) = Some c).
(* space, tab, newline, vertical tab, form feed, return *)
Definition blank (c : Z) : Prop := In c [32; 9; 10; 11; 12; 13].
Definition value (r : Z) (ds : list Z) : Z := fold_left (fun a d => a * r + d) ds 0.
(* the nearest 64-bit integer *)
Definition saturated (z : Z) : Z := if z <? - 2 ^ 63 then - 2 ^ 63 else if 2 ^ 63 - 1 <? z then 2 ^ 63 - 1 else z.
(* blanks, a sign, in radix 16 perhaps 0x, digits, and perhaps a null character and anything after it *)
Definition integer_text (r : Z) (s : list Z) (v : Z) : Prop :=
  exists ws sg pre cs ds tail, s = ws ++ sg ++ pre ++ cs ++ tail /\ Forall blank ws /\ In sg [[]; bs "+"; bs "-"] /\
    (pre = [] \/ r = 16 /\ (pre = bs "0x" \/ pre = bs "0X")) /\ cs <> [] /\ Forall2 (digit_in r) cs ds /\
    (tail = [] \/ exists t, tail = 0 :: t) /\ v = saturated (if match sg with [45] => true | _ => false end then - value r ds else value r ds).

(** ** proofs *)
Lemma digit_val_in r c : 2 <= r <= 36 -> digit_val c < r -> digit_in r c (digit_val c).
Proof.
  intros R D.
  assert (B : 48 <= c <= 122) by (unfold digit_val in D; repeat match type of D with context[if ?b then _ else _] => destruct b eqn:?; cbn in D end; lia).
  assert (ALL : forallb (fun c => negb (digit_val c <? 36) || ((0 <=? digit_val c) && existsb (fun l => match nth_error l (Z.to_nat (digit_val c)) with Some x => x =? c | None => false end) [lower36; upper36]))%bool (map Z.of_nat (seq 48 75)) = true) by (vm_compute; reflexivity).
  rewrite forallb_forall in ALL. specialize (ALL c). assert (I : In c (map Z.of_nat (seq 48 75))) by (apply in_map_iff; exists (Z.to_nat c); split; [apply Z2Nat.id; lia|apply in_seq; lia]).
  specialize (ALL I). assert (L : digit_val c <? 36 = true) by lia. rewrite L in ALL. cbn [negb orb] in ALL. apply andb_true_iff in ALL. destruct ALL as [P Q]. apply existsb_exists in Q. destruct Q as (l & IL & E).
  split; [lia|]. destruct (nth_error l (Z.to_nat (digit_val c))) as [x|] eqn:NE; [|discriminate E]. assert (x = c) by lia. subst x. destruct IL as [<-|[<-|[]]]; auto.
Qed.
Lemma digit_in_val r c d : 2 <= r <= 36 -> digit_in r c d -> digit_val c = d.
Proof.
  intros R [[A B] H].
  assert (ALL : forallb (fun i => forallb (fun l => match nth_error l i with Some x => digit_val x =? Z.of_nat i | None => false end) [lower36; upper36]) (seq 0 36) = true) by (vm_compute; reflexivity).
  rewrite forallb_forall in ALL. specialize (ALL (Z.to_nat d)). assert (I : In (Z.to_nat d) (seq 0 36)) by (apply in_seq; lia). specialize (ALL I). rewrite forallb_forall in ALL.
  destruct H as [H|H]; [specialize (ALL lower36 (or_introl eq_refl))|specialize (ALL upper36 (or_intror (or_introl eq_refl)))]; rewrite H in ALL; apply Z.eqb_eq in ALL; rewrite Z2Nat.id in ALL; auto.
Qed.
Lemma space_blank c : is_space c = true <-> blank c.
Proof. unfold is_space, blank. cbn [In]. rewrite orb_true_iff, andb_true_iff. lia. Qed.
Lemma clamp_sat z : clamp64 z = saturated z.
Proof. unfold clamp64, saturated, i64_min, i64_max. destruct (z <? - 2 ^ 63) eqn:A; [lia|]. destruct (2 ^ 63 - 1 <? z) eqn:B; lia. Qed.
Lemma skip_app : forall ws s, Forall blank ws -> (match s with c :: _ => is_space c = false | [] => True end) -> skip_space (ws ++ s) = s.
Proof.
  induction ws as [|c ws IH]; intros s F H.
  - destruct s; [reflexivity|]. cbn. now rewrite H.
  - inversion F as [|? ? B F']; subst. cbn [app skip_space]. apply space_blank in B. rewrite B. auto.
Qed.
Lemma skip_split s : exists ws, s = ws ++ skip_space s /\ Forall blank ws.
Proof.
  induction s as [|c s IH]; [exists []; auto|]. cbn [skip_space]. destruct (is_space c) eqn:E; [|exists []; auto]. destruct IH as (ws & Q & F). exists (c :: ws). split; [now rewrite Q at 1|]. constructor; [now apply space_blank|exact F].
Qed.
(* the digit loop *)
Lemma loop_app r : 2 <= r <= 36 -> forall cs ds, Forall2 (digit_in r) cs ds -> forall acc any t, (match t with c :: _ => digit_val c <? r = false | [] => True end) ->
  strtol_digits r acc any (cs ++ t) = (fold_left (fun a d => a * r + d) ds acc, match cs with [] => any | _ => true end, t).
Proof.
  intros R cs ds F. induction F as [|c d cs ds D F IH]; intros acc any t H.
  - destruct t; cbn; [reflexivity|]. now rewrite H.
  - cbn [app strtol_digits fold_left]. rewrite (digit_in_val _ _ _ R D). assert (L : d <? r = true) by (destruct D; lia). rewrite L. rewrite (IH _ true t H). destruct cs; reflexivity.
Qed.
Lemma loop_split r : 2 <= r <= 36 -> forall s acc any v b t, strtol_digits r acc any s = (v, b, t) ->
  exists cs ds, s = cs ++ t /\ Forall2 (digit_in r) cs ds /\ v = fold_left (fun a d => a * r + d) ds acc /\ b = match cs with [] => any | _ => true end.
Proof.
  intros R. induction s as [|c s IH]; intros acc any v b t H; cbn [strtol_digits] in H.
  - injection H as <- <- <-. exists [], []. auto.
  - destruct (digit_val c <? r) eqn:D.
    + apply IH in H. destruct H as (cs & ds & -> & F & -> & ->). exists (c :: cs), (digit_val c :: ds). split; [reflexivity|]. split; [constructor; [apply digit_val_in; lia|exact F]|]. split; [reflexivity|]. destruct cs; reflexivity.
    + injection H as <- <- <-. exists [], []. auto.
Qed.
Lemma digit_facts r c d : 2 <= r <= 36 -> digit_in r c d -> is_space c = false /\ (c =? 45) = false /\ (c =? 43) = false /\ c <> 0.
Proof.
  intros R D. assert (V := digit_in_val _ _ _ R D). destruct D as [[A B] _]. unfold digit_val in V.
  assert (G : (48 <= c <= 57) \/ (97 <= c <= 122) \/ (65 <= c <= 90)).
  { destruct ((48 <=? c) && (c <=? 57))%bool eqn:E1; [lia|]. destruct ((97 <=? c) && (c <=? 122))%bool eqn:E2; [lia|]. destruct ((65 <=? c) && (c <=? 90))%bool eqn:E3; lia. }
  unfold is_space. lia.
Qed.
Lemma strip_none r c d t : 2 <= r <= 36 -> digit_in r c d -> strip_sign (c :: t) = (false, c :: t).
Proof. intros R D. destruct (digit_facts r c d R D) as (_ & A & B & _). cbn. now rewrite A, B. Qed.
Lemma app0 (s : list Z) ws sg pre cs u : s ++ [0] = ws ++ sg ++ pre ++ cs ++ 0 :: u -> exists t, s = ws ++ sg ++ pre ++ cs ++ t /\ (t = [] \/ exists q, t = 0 :: q).
Proof.
  intro H. destruct (@exists_last _ (0 :: u)) as (q & z & E); [discriminate|]. rewrite E in H. rewrite !app_assoc in H. apply app_inj_tail in H. destruct H as [H _]. exists q. split; [now rewrite !app_assoc|].
  destruct q as [|y q]; [now left|right]. cbn in E. injection E as E1 _. subst y. exists q. reflexivity.
Qed.
Lemma fold_strip r s2 : strip_0x r s2 = s2 \/ r = 16 /\ exists h t, digit_val h < 16 /\ strip_0x r s2 = h :: t /\ (s2 = bs "0x" ++ h :: t \/ s2 = bs "0X" ++ h :: t).
Proof.
  destruct s2 as [|z [|x [|h t]]]; auto. cbn [strip_0x]. destruct ((r =? 16) && (z =? 48) && ((x =? 120) || (x =? 88)) && (digit_val h <? 16))%bool eqn:E; [|auto].
  right. rewrite !andb_true_iff, orb_true_iff in E. destruct E as [[[E1 E2] E3] E4]. split; [lia|]. exists h, t. split; [lia|]. split; [reflexivity|]. assert (z = 48) by (apply Z.eqb_eq; exact E2). subst z. destruct E3 as [E3|E3]; apply Z.eqb_eq in E3; subst x; [left|right]; reflexivity.
Qed.
(* strtol on a text with its terminating null character *)
Lemma strtol_spec r s v : 2 <= r <= 36 -> (exists u, strtol (s ++ [0]) r = Some (v, 0 :: u)) <-> integer_text r s v.
Proof.
  intro R. split.
  - intros [u H]. unfold strtol in H. destruct (skip_split (s ++ [0])) as (ws & E & FW). set (s1 := skip_space (s ++ [0])) in *. destruct (strip_sign s1) as [neg s2] eqn:SS.
    destruct (strtol_digits r 0 false (strip_0x r s2)) as [[w any] rest] eqn:LD. destruct any; [|discriminate H]. injection H as <- ->.
    apply (loop_split r R) in LD. destruct LD as (cs & ds & EC & FD & -> & ANY). assert (NC : cs <> []) by (destruct cs; easy).
    assert (SG : exists sg, s1 = sg ++ s2 /\ In sg [[]; bs "+"; bs "-"] /\ neg = match sg with [45] => true | _ => false end).
    { unfold strip_sign in SS. destruct s1 as [|c t]; [injection SS as <- <-; exists []; cbn; auto|]. destruct (c =? 45) eqn:C1; [injection SS as <- <-; exists [45]; assert (c = 45) by lia; subst; cbn; auto 6|].
      destruct (c =? 43) eqn:C2; injection SS as <- <-; [exists [43]; assert (c = 43) by lia; subst; cbn; auto 6|exists []; cbn; auto]. }
    destruct SG as (sg & ES & IS & ->).
    assert (PR : exists pre, s2 = pre ++ cs ++ 0 :: u /\ (pre = [] \/ r = 16 /\ (pre = bs "0x" \/ pre = bs "0X"))).
    { destruct (fold_strip r s2) as [Q|(Q & h & t & _ & Q2 & Q3)]; [exists []; split; [cbn [app]; rewrite <- EC; symmetry; exact Q|auto]|]. rewrite Q2 in EC. destruct Q3 as [Q3|Q3]; eexists; (split; [rewrite Q3, EC; reflexivity|auto]). }
    destruct PR as (pre & EP & HP). rewrite ES, EP in E. destruct (app0 s ws sg pre cs u E) as (t & Es & Ht). exists ws, sg, pre, cs, ds, t.
    split; [exact Es|]. split; [exact FW|]. split; [exact IS|]. split; [exact HP|]. split; [exact NC|]. split; [exact FD|]. split; [exact Ht|]. apply clamp_sat.
  - intros (ws & sg & pre & cs & ds & tail & -> & FW & IS & HP & NC & FD & HT & ->).
    assert (Z : exists u, tail ++ [0] = 0 :: u) by (destruct HT as [->|[t ->]]; [exists []; reflexivity|exists (t ++ [0]); reflexivity]). destruct Z as [u Z]. exists u.
    assert (E : (ws ++ sg ++ pre ++ cs ++ tail) ++ [0] = ws ++ sg ++ pre ++ cs ++ 0 :: u) by (rewrite <- Z; now rewrite !app_assoc). rewrite E.
    destruct cs as [|c cs]; [easy|]. inversion FD as [|? d ? ds' D FD']; subst. destruct (digit_facts r c d R D) as (S1 & S2 & S3 & S4).
    set (s3 := (c :: cs) ++ 0 :: u). set (s2 := pre ++ s3).
    assert (H2 : match s2 with x :: _ => is_space x = false /\ (x =? 45) = false /\ (x =? 43) = false | [] => False end).
    { unfold s2, s3. destruct HP as [->|[_ [->| ->]]]; cbn; auto. }
    unfold strtol. rewrite skip_app; [|exact FW|].
    2:{ destruct IS as [<-|[<-|[<-|[]]]]; try reflexivity. cbn [app]. change (pre ++ c :: cs ++ 0 :: u) with s2. destruct s2; [exact Logic.I|]. apply H2. }
    assert (SS : strip_sign (sg ++ s2) = (match sg with [45] => true | _ => false end, s2)).
    { destruct IS as [<-|[<-|[<-|[]]]]; try reflexivity. cbn [app]. destruct s2 as [|x t]; [easy|]. destruct H2 as (_ & A & B). cbn. now rewrite A, B. }
    change (sg ++ pre ++ (c :: cs) ++ 0 :: u) with (sg ++ s2). rewrite SS.
    assert (S0 : strip_0x r s2 = s3).
    { destruct HP as [->|[-> HX]].
      - unfold s2, s3. cbn [app]. destruct (fold_strip r (c :: cs ++ 0 :: u)) as [Q|(Q & h & t & Hh & Q2 & Q3)]; [exact Q|]. exfalso. subst r.
        assert (X : exists x cs', cs = x :: cs' /\ (x = 120 \/ x = 88)).
        { destruct cs as [|x cs']; [destruct Q3 as [Q3|Q3]; cbn in Q3; discriminate Q3|]. exists x, cs'. split; [reflexivity|]. destruct Q3 as [Q3|Q3]; cbn in Q3; injection Q3 as _ -> _; auto. }
        destruct X as (x & cs' & -> & X). inversion FD' as [|? d2 ? ? D2 _]; subst. assert (V := digit_in_val _ _ _ R D2). destruct D2 as [[? ?] _]. destruct X as [->| ->]; cbn in V; lia.
      - assert (DV : digit_val c <? 16 = true) by (rewrite (digit_in_val _ _ _ R D); destruct D; lia). unfold s2, s3. destruct HX as [->| ->]; cbn [bs app]; cbn -[digit_val]; now rewrite DV. }
    rewrite S0. unfold s3. assert (Z0 : match 0 :: u with x :: _ => digit_val x <? r = false | [] => True end) by (cbn; lia). rewrite (loop_app r R (c :: cs) (d :: ds') FD 0 false (0 :: u) Z0).
    unfold value. f_equal. f_equal. apply clamp_sat.
Qed.

(** ** C192 *)
(* In every radix from 2 to 36 the texts taken for an integer are exactly those of the grammar, and
   the value is the one they denote, or the nearest 64-bit integer; texts with a point or an e in
   radix 10 are left to strtod; every other text gives #f. *)
Theorem c192_grammar : forall r s, 2 <= r <= 36 -> ~ (r = 10 /\ exists c, In c s /\ In c (bs ".eE")) ->
  (forall v, string_to_number s (Some (VInt r)) = Ok (SNInt v) <-> s <> [] /\ integer_text r s v) /\
  ((~ exists v, integer_text r s v) -> string_to_number s (Some (VInt r)) = Ok SNFalse).
Proof.
  intros r s R NF. unfold string_to_number. assert (GR : get_radix (Some (VInt r)) = Ok r).
  { unfold get_radix. cbv zeta. assert (Q : to_int32 r = r) by (unfold to_int32; rewrite Z.mod_small; lia). rewrite Q. destruct ((r <? 2) || (r >? 36))%bool eqn:E; [lia|reflexivity]. }
  rewrite GR. cbn [bind].
  assert (FL : (existsb (fun c => (c =? 46) || (c =? 101) || (c =? 69)) s && (r =? 10))%bool = false).
  { destruct (existsb _ s) eqn:EX; [|reflexivity]. destruct (r =? 10) eqn:E10; [|reflexivity]. exfalso. apply NF. split; [lia|]. apply existsb_exists in EX. destruct EX as (c & I & C). exists c. split; [exact I|]. cbn. lia. }
  destruct (length s =? 0)%nat eqn:L0.
  - destruct s; [|discriminate L0]. split; [|reflexivity]. intro v. split; [discriminate|]. intros [N _]. easy.
  - assert (NS : s <> []) by (destruct s; easy). rewrite FL. pose proof (fun v => strtol_spec r s v R) as SP. split.
    + intro v. rewrite <- SP. destruct (strtol (s ++ [0]) r) as [[w [|[|p|p] u]]|]; split; intro H; try discriminate H; try (destruct H as [_ [q H]]; try discriminate H; injection H as -> _; reflexivity).
      injection H as ->. split; [exact NS|]. eauto.
    + intro N. destruct (strtol (s ++ [0]) r) as [[w [|[|p|p] u]]|] eqn:E; try reflexivity. exfalso. apply N. exists w. apply SP. eauto.
Qed.
Print Assumptions c192_grammar.
Theorem c192_default : forall s, string_to_number s None = string_to_number s (Some (VInt 10)).
Proof. reflexivity. Qed.
Print Assumptions c192_default.
Theorem c192_bad_radix : forall r s, - 2 ^ 31 <= r < 2 ^ 31 -> ~ 2 <= r <= 36 -> string_to_number s (Some (VInt r)) = Err.
Proof.
  intros r s B R. unfold string_to_number, get_radix. cbv zeta. assert (Q : to_int32 r = r) by (unfold to_int32; rewrite Z.mod_small; lia). rewrite Q. destruct ((r <? 2) || (r >? 36))%bool eqn:E; [reflexivity|lia].
Qed.
Print Assumptions c192_bad_radix.
Example c192_ex : string_to_number (bs "-0xFf") (Some (VInt 16)) = Ok (SNInt (-255)) /\ string_to_number (bs "zZ") (Some (VInt 36)) = Ok (SNInt 1295) /\ string_to_number [9; 43; 49; 50] None = Ok (SNInt 12) /\
  string_to_number (bs "12a") None = Ok SNFalse /\ string_to_number (bs "0x") (Some (VInt 16)) = Ok SNFalse.
Proof. vm_compute. repeat split. Qed.

(** ** C193 *)
(* a text is taken for an integer only if it is a sign and digits and nothing else: false *)
Theorem c193_only_numerals_refuted : ~ (forall s v, string_to_number s None = Ok (SNInt v) ->
  exists sg cs, s = sg ++ cs /\ In sg [[]; bs "+"; bs "-"] /\ Forall (fun c => 48 <= c <= 57) cs).
Proof.
  intro H. destruct (H [32; 49] 1) as (sg & cs & E & I & F); [vm_compute; reflexivity|]. destruct I as [<-|[<-|[<-|[]]]]; try discriminate E. cbn in E. subst cs. inversion F. lia.
Qed.
Print Assumptions c193_only_numerals_refuted.
(* the rest of a string after a null character is ignored *)
Theorem c193_null : forall s t v r, 2 <= r <= 36 -> integer_text r s v -> (forall c, In c s -> c <> 0) -> integer_text r (s ++ 0 :: t) v.
Proof.
  intros s t v r R (ws & sg & pre & cs & ds & tail & -> & A & B & C & D & E & F & G) N. exists ws, sg, pre, cs, ds, (tail ++ 0 :: t). split; [now rewrite <- !app_assoc|]. repeat (split; [assumption|]). split; [|exact G].
  right. destruct F as [->|[q ->]]; cbn; eauto.
Qed.
Print Assumptions c193_null.
(* and the value is the one that the digits denote: false, 20 nines give the largest 64-bit integer *)
Theorem c193_value_refuted : exists s, Forall (fun c => c = 57) s /\ string_to_number s None = Ok (SNInt (2 ^ 63 - 1)) /\ value 10 (map (fun c => c - 48) s) <> 2 ^ 63 - 1.
Proof. exists (repeat 57 20). split; [|split]; [repeat constructor|vm_compute; reflexivity|vm_compute; discriminate]. Qed.
Print Assumptions c193_value_refuted.
