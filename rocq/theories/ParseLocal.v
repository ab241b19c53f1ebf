(** What the reader makes of a text does not change when a line break and more
    text are added after it. *)
From Coq Require Import Lia String SpecFloat.
From Verif Require Import Base NumModel HeapModel StringModel ParseModel ParseSpec ParseProofs ParseProofs2.
Local Open Scope list_scope.

Section Local.
Variable u : list Z.
Let T := 10 :: u.

Lemma at0_app s : s <> [] -> at0 (s ++ T) = at0 s. Proof. destruct s; [congruence|reflexivity]. Qed.
Lemma at0_k s k : k <> 0 -> k <> 10 -> (at0 (s ++ T) =? k) = (at0 s =? k).
Proof.
  intros. destruct s; [|reflexivity]. change ((10 =? k) = (0 =? k)).
  rewrite (proj2 (Z.eqb_neq 10 k)), (proj2 (Z.eqb_neq 0 k)) by congruence. reflexivity.
Qed.
Lemma at1_k s k : s <> [] -> k <> 0 -> k <> 10 -> (at1 (s ++ T) =? k) = (at1 s =? k).
Proof.
  intros N ? ?. destruct s as [|c [|e s]]; [congruence| |reflexivity]. change ((10 =? k) = (0 =? k)).
  rewrite (proj2 (Z.eqb_neq 10 k)), (proj2 (Z.eqb_neq 0 k)) by congruence. reflexivity.
Qed.
Lemma at2_tok s : at1 s <> 0 -> tok_end (at2 (s ++ T)) = tok_end (at2 s).
Proof. intros N. destruct s as [|c [|e [|f s]]]; cbn in N; try congruence; reflexivity. Qed.
Lemma at1_digit s : s <> [] -> isdigit (at1 (s ++ T)) = isdigit (at1 s).
Proof. intros N. destruct s as [|c [|e s]]; [congruence| |]; reflexivity. Qed.
Lemma at0_digit s : isdigit (at0 (s ++ T)) = isdigit (at0 s).
Proof. destruct s; reflexivity. Qed.
Lemma adv_app s r : adv s = Ok r -> adv (s ++ T) = Ok (r ++ T).
Proof. destruct s; cbn; [discriminate|]. now intros [= ->]. Qed.
Lemma adv2_app s r : adv2 s = Ok r -> adv2 (s ++ T) = Ok (r ++ T).
Proof. destruct s as [|a [|b s]]; cbn; try discriminate. now intros [= ->]. Qed.
Lemma skip_app : forall s b, skip_ws b s <> [] -> skip_ws b (s ++ T) = skip_ws b s ++ T.
Proof.
  induction s as [|c s IH]; intros b; cbn [app skip_ws]; [congruence|].
  destruct b; [destruct (c =? 0); [reflexivity|]; destruct (c =? 10); apply IH|].
  destruct (isspace c); [apply IH|]. destruct (c =? 59); [apply IH|reflexivity].
Qed.
Lemma skip_app0 : forall s b, skip_ws b s = [] -> skip_ws b (s ++ T) = skip u.
Proof.
  induction s as [|c s IH]; intros b; cbn [app skip_ws]; [destruct b; reflexivity|].
  destruct b; [destruct (c =? 0); [discriminate|]; destruct (c =? 10); apply IH|].
  destruct (isspace c); [apply IH|]. destruct (c =? 59); [apply IH|discriminate].
Qed.
Lemma int_digits_app : forall s acc v r, int_digits acc s = Ok (v, r) -> int_digits acc (s ++ T) = Ok (v, r ++ T).
Proof.
  induction s as [|c s IH]; intros acc v r; cbn [app int_digits]; [now intros [= <- <-]|].
  destruct (isdigit c); [|now intros [= <- <-]]. destruct (i64 _); cbn [bind]; try discriminate. apply IH.
Qed.
Lemma frac_digits_app : forall s f d, frac_digits f d (s ++ T) = (let '(a, b, r) := frac_digits f d s in (a, b, r ++ T)).
Proof. induction s as [|c s IH]; intros f d; cbn [app frac_digits]; [reflexivity|]. destruct (isdigit c); [apply IH|reflexivity]. Qed.
Definition extr {A} (m m' : res (A * list Z)) : Prop := forall a r, m = Ok (a, r) -> m' = Ok (a, r ++ T).
Lemma bind_inv {A B} (m : res A) (f : A -> res B) b : bind m f = Ok b -> exists a, m = Ok a /\ f a = Ok b.
Proof. destruct m; cbn; try discriminate. eauto. Qed.
Lemma extr_bind {A B} (m m' : res (A * list Z)) (f g : A * list Z -> res (B * list Z)) :
  extr m m' -> (forall a r, m = Ok (a, r) -> extr (f (a, r)) (g (a, r ++ T))) -> extr (bind m f) (bind m' g).
Proof. intros H K b r E. apply bind_inv in E as ((a & s) & E & F). rewrite (H a s E). cbn [bind]. exact (K a s E b r F). Qed.
Lemma extr_adv {A} s (f g : list Z -> res (A * list Z)) : (forall r, adv s = Ok r -> extr (f r) (g (r ++ T))) -> extr (bind (adv s) f) (bind (adv (s ++ T)) g).
Proof. intros K b r E. apply bind_inv in E as (a & E & F). rewrite (adv_app _ _ E). cbn [bind]. exact (K a E b r F). Qed.
Lemma extr_adv2 {A} s (f g : list Z -> res (A * list Z)) : (forall r, adv2 s = Ok r -> extr (f r) (g (r ++ T))) -> extr (bind (adv2 s) f) (bind (adv2 (s ++ T)) g).
Proof. intros K b r E. apply bind_inv in E as (a & E & F). rewrite (adv2_app _ _ E). cbn [bind]. exact (K a E b r F). Qed.
Lemma extr_ok {A} (a : A) r : extr (Ok (a, r)) (Ok (a, r ++ T)). Proof. now intros b k [= <- <-]. Qed.
Lemma extr_err {A} (m : res (A * list Z)) : extr Err m. Proof. intros b k [=]. Qed.

Lemma p_unsigned_app neg s : extr (p_unsigned neg s) (p_unsigned neg (s ++ T)).
Proof.
  unfold p_unsigned. intros d r E.
  apply bind_inv in E as ((ip & s1) & E1 & E). rewrite (int_digits_app _ _ _ _ E1). cbn [bind].
  apply bind_inv in E as (((isf1 & fv1) & s2) & E2 & E).
  replace (if at0 (s1 ++ T) =? 46 then _ else _) with (@Ok (bool * dbl * list Z) (isf1, fv1, s2 ++ T)).
  2:{ rewrite (at0_k s1 46) by discriminate. destruct (at0 s1 =? 46); [|now injection E2 as <- <- <-].
      apply bind_inv in E2 as (s' & A & E2). rewrite (adv_app _ _ A). cbn [bind]. rewrite frac_digits_app.
      destruct (frac_digits dzero (d_of_Z 1) s') as [[fr dv] s'']. now injection E2 as <- <- <-. }
  cbn [bind]. apply bind_inv in E as (((isf2 & fv2) & s3) & E3 & E).
  replace (if (at0 (s2 ++ T) =? 101) || (at0 (s2 ++ T) =? 69) then _ else _) with (@Ok (bool * dbl * list Z) (isf2, fv2, s3 ++ T)).
  2:{ rewrite (at0_k s2 101), (at0_k s2 69) by discriminate. destruct ((at0 s2 =? 101) || (at0 s2 =? 69)); [|now injection E3 as <- <- <-].
      apply bind_inv in E3 as (s' & A & E3). rewrite (adv_app _ _ A). cbn [bind].
      rewrite (at0_k s' 45), (at0_k s' 43) by discriminate.
      apply bind_inv in E3 as (s'' & A2 & E3).
      replace (if (at0 s' =? 45) || (at0 s' =? 43) then adv (s' ++ T) else Ok (s' ++ T)) with (@Ok (list Z) (s'' ++ T)).
      2:{ destruct ((at0 s' =? 45) || (at0 s' =? 43)); [symmetry; now apply adv_app|now injection A2 as <-]. }
      cbn [bind]. rewrite at0_digit. destruct (negb (isdigit (at0 s''))); [discriminate|].
      apply bind_inv in E3 as ((ex & s''') & A3 & E3). rewrite (int_digits_app _ _ _ _ A3). cbn [bind]. now injection E3 as <- <- <-. }
  cbn [bind]. destruct isf2; [now injection E as <- <-|].
  apply bind_inv in E as (v & E4 & E). rewrite E4. cbn [bind]. now injection E as <- <-.
Qed.
(* option-valued parsers *)
Definition exto {A} (m m' : res (option (A * list Z))) : Prop :=
  (forall a r, m = Ok (Some (a, r)) -> m' = Ok (Some (a, r ++ T))) /\ (m = Ok None -> m' = Ok None).
Lemma p_number_app s : s <> [] -> exto (p_number s) (p_number (s ++ T)).
Proof.
  intro N. unfold p_number. rewrite (at0_k s 45), (at0_k s 43) by discriminate. rewrite (at1_digit s N), (at0_digit s).
  assert (G : forall neg r r', (forall k, r = Ok k -> r' = Ok (k ++ T)) ->
    exto (do k <- r; do x <- p_unsigned neg k; Ok (Some x)) (do k <- r'; do x <- p_unsigned neg k; Ok (Some x))).
  { intros neg r r' H. split.
    - intros a q E. apply bind_inv in E as (k & E1 & E). rewrite (H k E1). cbn [bind]. apply bind_inv in E as ((d & q') & E2 & E). injection E as <- <-.
      rewrite (p_unsigned_app neg k d q' E2). reflexivity.
    - intros E. apply bind_inv in E as (k & E1 & E). apply bind_inv in E as (x & E2 & E). discriminate. }
  destruct (at0 s =? 45).
  - destruct (negb (isdigit (at1 s))); [split; [discriminate|auto]|]. apply G. apply adv_app.
  - destruct (at0 s =? 43).
    + destruct (negb (isdigit (at1 s))); [split; [discriminate|auto]|]. apply G. apply adv_app.
    + destruct (negb (isdigit (at0 s))); [split; [discriminate|auto]|].
      apply (G false (Ok s) (Ok (s ++ T))). now intros k [= <-].
Qed.
Lemma alpha_run_app : forall s, alpha_run (s ++ T) = (let '(n, k) := alpha_run s in (n, k ++ T)).
Proof. induction s as [|c s IH]; cbn [app alpha_run]; [reflexivity|]. destruct (isalpha c); [|reflexivity]. rewrite IH. now destruct (alpha_run s). Qed.
Lemma p_char_app s : extr (p_char s) (p_char (s ++ T)).
Proof.
  unfold p_char. apply extr_adv2. intros r _. destruct r as [|c r]; [intros d q [=]|]. cbn [app at0 nth].
  destruct (c =? 0); [intros d q [=]|]. cbn [adv bind app]. destruct (isspace c); [apply extr_ok|].
  destruct (isalpha c) eqn:A; [|apply extr_ok].
  change (c :: r ++ T) with ((c :: r) ++ T). rewrite alpha_run_app. destruct (alpha_run (c :: r)) as [n k].
  destruct (beq _ _); [apply extr_ok|]. destruct (beq _ _); [apply extr_ok|]. destruct (_ || _); [apply extr_ok|]. apply extr_ok.
Qed.
Lemma str_scan_app : forall s e b k, str_scan e s = (b, k) -> k <> [] -> str_scan e (s ++ T) = (b, k ++ T).
Proof.
  induction s as [|c s IH]; intros e b k; cbn [app str_scan]; [intros [= <- <-]; congruence|].
  destruct (c =? 0); [now intros [= <- <-] _|].
  destruct e; [destruct (str_scan false s) as [b' k'] eqn:E; intros [= <- <-] N; now rewrite (IH false b' k' E N)|].
  destruct (c =? 92); [destruct (str_scan true s) as [b' k'] eqn:E; intros [= <- <-] N; now rewrite (IH true b' k' E N)|].
  destruct (c =? 34); [now intros [= <- <-] _|].
  destruct (str_scan false s) as [b' k'] eqn:E; intros [= <- <-] N; now rewrite (IH false b' k' E N).
Qed.
Lemma p_string_app s : extr (p_string s) (p_string (s ++ T)).
Proof.
  unfold p_string. apply extr_adv. intros r _. destruct (str_scan false r) as [b k] eqn:E.
  destruct k as [|c k]; [intros d q [=]|]. rewrite (str_scan_app _ _ _ _ E) by discriminate.
  rewrite at0_app by discriminate. destruct (negb _); [apply extr_err|]. apply extr_adv. intros q _. apply extr_ok.
Qed.
Lemma sym_scan_app : forall m s, (length s <= m)%nat -> sym_scan (s ++ T) = (let '(n, k) := sym_scan s in (n, k ++ T)).
Proof.
  induction m as [|m IH]; intros s L.
  - destruct s; [reflexivity|cbn in L; lia].
  - destruct s as [|c s]; [reflexivity|]. cbn [length] in L. cbn [app sym_scan]. destruct (c =? 0); [reflexivity|].
    destruct (c =? 92).
    + destruct s as [|c2 s].
      * cbn [app]. unfold T. cbn [esc_ok]. reflexivity.
      * cbn [app]. cbn [length] in L. destruct (esc_ok c2).
        -- rewrite (IH s) by lia. destruct (sym_scan s). reflexivity.
        -- change (c2 :: s ++ T) with ((c2 :: s) ++ T). rewrite (IH (c2 :: s)) by (cbn [length]; lia). destruct (sym_scan (c2 :: s)). reflexivity.
    + destruct (symchar c); [|reflexivity]. rewrite (IH s) by lia. destruct (sym_scan s). reflexivity.
Qed.
Lemma p_symbol_app s : s <> [] -> exto (p_symbol s) (p_symbol (s ++ T)).
Proof.
  intro N. unfold p_symbol. rewrite (at0_k s 35), (at1_k s 116), (at1_k s 102) by (auto; discriminate).
  assert (K : forall c, c <> 0 -> (at0 s =? 35) && (at1 s =? c) && tok_end (at2 (s ++ T)) = (at0 s =? 35) && (at1 s =? c) && tok_end (at2 s)).
  { intros c C. destruct (Z.eqb_spec (at1 s) c) as [E|]; [rewrite at2_tok by congruence; reflexivity|now rewrite !andb_false_r]. }
  rewrite !K by discriminate.
  assert (G : forall (v : bool), exto (do r <- adv2 s; Ok (Some (RBool v, r))) (do r <- adv2 (s ++ T); Ok (Some (RBool v, r)))).
  { intro v. split.
    - intros a q E. apply bind_inv in E as (k & E1 & E). injection E as <- <-. now rewrite (adv2_app _ _ E1).
    - intros E. apply bind_inv in E as (k & E1 & E). discriminate. }
  destruct (_ && _); [apply G|]. destruct (_ && _); [apply G|].
  rewrite (sym_scan_app (length s) s) by lia. destruct (sym_scan s) as [raw rest]. destruct raw; split; try discriminate; auto.
  now intros a r [= <- <-].
Qed.
Lemma brace_scan_app : forall s d n k, brace_scan d s = Some (n, k) -> brace_scan d (s ++ T) = Some (n, k ++ T).
Proof.
  induction s as [|c s IH]; intros d n k; cbn [app brace_scan]; [discriminate|]. destruct (c =? 0); [discriminate|]. cbv zeta.
  destruct (if c =? 123 then S d else if c =? 125 then Nat.pred d else d) as [|d']; [now intros [= <- <-]|].
  destruct (brace_scan (S d') s) as [[n' k']|] eqn:E; [|discriminate]. intros [= <- <-]. now rewrite (IH _ _ _ E).
Qed.
Lemma p_brace_app s : extr (p_brace s) (p_brace (s ++ T)).
Proof.
  unfold p_brace. apply extr_adv2. intros r _. destruct (brace_scan 1 r) as [[n k]|] eqn:E; [|apply extr_err].
  rewrite (brace_scan_app _ _ _ _ E). apply extr_adv. intros k1 _. rewrite (at0_k k1 35) by discriminate.
  destruct (negb _); [apply extr_err|]. apply extr_adv. intros k2 _. apply extr_ok.
Qed.

(** the five mutually recursive functions *)
Definition some_ext (m m' : res (option rdatum * list Z)) : Prop := forall d r, m = Ok (Some d, r) -> m' = Ok (Some d, r ++ T).
Definition nonempty_ext {A} (m m' : res (A * list Z)) : Prop := forall a r, m = Ok (a, r) -> r <> [] -> m' = Ok (a, r ++ T).
Definition loc (n : nat) : Prop :=
  (forall s, some_ext (p_expr n s) (p_expr n (s ++ T))) /\ (forall s, s <> [] -> extr (p_quote n s) (p_quote n (s ++ T))) /\
  (forall s, s <> [] -> extr (p_unq n s) (p_unq n (s ++ T))) /\ (forall s, nonempty_ext (p_elems n s) (p_elems n (s ++ T))) /\
  (forall s, nonempty_ext (p_vec n s) (p_vec n (s ++ T))).
Lemma nz_ne s k : (at0 s =? k) = true -> k <> 0 -> s <> [].
Proof. intros E N ->. apply Z.eqb_eq in E. unfold at0 in E. cbn [nth] in E. congruence. Qed.
Lemma some_ext_lift (m m' : res (rdatum * list Z)) : extr m m' -> some_ext (do '(d, r) <- m; Ok (Some d, r)) (do '(d, r) <- m'; Ok (Some d, r)).
Proof. intros H d r E. apply bind_inv in E as ((a & k) & E & F). injection F as <- <-. rewrite (H _ _ E). reflexivity. Qed.
Lemma some_ext_bind {B} (m m' : res (option rdatum * list Z)) (f g : option rdatum * list Z -> res (B * list Z)) b r :
  some_ext m m' -> bind m f = Ok (b, r) -> (forall k, f (None, k) = Err) ->
  exists d k, m = Ok (Some d, k) /\ f (Some d, k) = Ok (b, r) /\ bind m' g = g (Some d, k ++ T).
Proof.
  intros H E N. apply bind_inv in E as (([d|] & k) & E & F); [|rewrite N in F; discriminate]. exists d, k. rewrite (H d k E). auto.
Qed.

Lemma skip_ne s : at0 (skip s) <> 0 -> skip s <> [].
Proof. intros N E. rewrite E in N. now apply N. Qed.
Lemma at0_ne s : at0 s <> 0 -> s <> [].
Proof. intros N ->. now apply N. Qed.
Lemma at0_same s : s <> [] -> at0 (s ++ T) = at0 s.
Proof. apply at0_app. Qed.
Lemma at1_eqb s k : s <> [] -> (k =? 0) = false -> (k =? 10) = false -> (at1 (s ++ T) =? k) = (at1 s =? k).
Proof. intros N A B. apply at1_k; [assumption| |]; intros ->; discriminate. Qed.
(* a datum that starts with a comma, or any other *)
Lemma datum_ext n s k : loc n -> k = 39 \/ k = 44 -> (* unused for the quote *)
  some_ext (if at0 s =? 44 then do '(x, k) <- p_unq n s; Ok (Some x, k) else p_expr n s)
           (if at0 (s ++ T) =? 44 then do '(x, k) <- p_unq n (s ++ T); Ok (Some x, k) else p_expr n (s ++ T)).
Proof.
  intros (He & Hq & Hu & _) _. rewrite (at0_k s 44) by discriminate. destruct (at0 s =? 44) eqn:E; [|apply He].
  apply some_ext_lift, Hu. eapply nz_ne; [exact E|discriminate].
Qed.
Lemma datum_ext2 n s : loc n ->
  some_ext (if at0 s =? 39 then do '(x, k) <- p_quote n s; Ok (Some x, k) else if at0 s =? 44 then do '(x, k) <- p_unq n s; Ok (Some x, k) else p_expr n s)
           (if at0 (s ++ T) =? 39 then do '(x, k) <- p_quote n (s ++ T); Ok (Some x, k) else if at0 (s ++ T) =? 44 then do '(x, k) <- p_unq n (s ++ T); Ok (Some x, k) else p_expr n (s ++ T)).
Proof.
  intros L. pose proof L as (He & Hq & Hu & _). rewrite (at0_k s 39) by discriminate. destruct (at0 s =? 39) eqn:E.
  - apply some_ext_lift, Hq. eapply nz_ne; [exact E|discriminate].
  - apply (datum_ext n s 39 L). auto.
Qed.
Lemma p_expr_nil n d r : p_expr n [] = Ok (d, r) -> d = None.
Proof. destruct n; cbn [p_expr]; [discriminate|]. now intros [= <- <-]. Qed.
Lemma p_elems_nil n a r : p_elems n [] = Ok (a, r) -> r = [].
Proof. destruct n; cbn [p_elems]; [discriminate|]. now intros [= <- <-]. Qed.
Lemma p_vec_nil n a r : p_vec n [] = Ok (a, r) -> r = [].
Proof. destruct n; cbn [p_vec]; [discriminate|]. now intros [= <- <-]. Qed.
Lemma p_elems_dot n a r : p_elems n [46] = Ok (a, r) -> r = [].
Proof.
  destruct n as [|n]; [discriminate|]. cbn [p_elems]. change (at0 [46]) with 46. cbn [Z.eqb orb].
  intros E. cbn in E. destruct n as [|n]; [discriminate|]. cbn in E.
  now injection E.
Qed.
Lemma skip_datum n s d k : p_expr n (skip s) = Ok (Some d, k) -> skip (s ++ T) = skip s ++ T.
Proof. intros E. apply skip_app. intros N. change (skip_ws false s) with (skip s) in N. rewrite N in E. apply p_expr_nil in E. discriminate. Qed.
Lemma p_unq_some n s d k : p_unq n s = Ok (d, k) -> s <> [].
Proof. intros E ->. destruct n; cbn in E; discriminate. Qed.
Lemma p_quote_some n s d k : p_quote n s = Ok (d, k) -> s <> [].
Proof. intros E ->. destruct n; cbn in E; discriminate. Qed.

Lemma loc_all : forall n, loc n.
Proof.
  induction n as [|n IH].
  { split; [intros s d r E; discriminate E|]. split; [intros s N d r E; discriminate E|]. split; [intros s N d r E; discriminate E|].
    split; intros s d r E; discriminate E. }
  pose proof IH as (He & Hq & Hu & Hl & Hv). split; [|split; [|split; [|split]]].
  - (* p_expr *)
    intros s0 d r E. cbn [p_expr] in E |- *. cbv zeta in E |- *.
    destruct (at0 (skip s0) =? 0) eqn:Z0; [discriminate E|].
    apply Z.eqb_neq in Z0. pose proof (skip_ne _ Z0) as N.
    rewrite (skip_app s0 false N). set (s := skip_ws false s0) in *. clearbody s.
    rewrite (at0_same s N). rewrite (proj2 (Z.eqb_neq (at0 s) 0) Z0).
    destruct (at0 s =? 39). { revert d r E. apply some_ext_lift, Hq, N. }
    destruct (at0 s =? 96).
    { apply bind_inv in E as (k & A & E). rewrite (adv_app _ _ A). cbn [bind].
      apply bind_inv in E as (([x|] & k') & A2 & E); [|discriminate]. rewrite (datum_ext n k 39 IH (or_introl eq_refl) x k' A2). cbn [bind]. now injection E as <- <-. }
    destruct (at0 s =? 40).
    { apply bind_inv in E as (k & A & E). rewrite (adv_app _ _ A). cbn [bind].
      destruct (skip k) as [|c k1] eqn:K.
      { change (at0 [] =? 41) with false in E. cbv iota in E. apply bind_inv in E as (([els tl] & r') & A2 & E). apply p_elems_nil in A2. subst r'. discriminate. }
      rewrite (skip_app k false) by (rewrite K; discriminate). rewrite K. rewrite at0_same by discriminate.
      destruct (at0 (c :: k1) =? 41).
      { apply bind_inv in E as (k2 & A2 & E). rewrite (adv_app _ _ A2). cbn [bind]. now injection E as <- <-. }
      apply bind_inv in E as (([els tl] & r') & A2 & E). destruct (at0 r' =? 41) eqn:R; [|discriminate].
      assert (N2 : r' <> []) by (eapply nz_ne; [exact R|discriminate]).
      rewrite (Hl _ _ _ A2 N2). cbn [bind]. rewrite (at0_same _ N2), R. cbn [negb] in *. cbv iota in E |- *.
      apply bind_inv in E as (k2 & A3 & E). rewrite (adv_app _ _ A3). cbn [bind]. now injection E as <- <-. }
    destruct (at0 s =? 34). { revert d r E. apply some_ext_lift, p_string_app. }
    rewrite !(at1_eqb s) by (assumption || reflexivity).
    destruct ((at0 s =? 35) && (at1 s =? 58)).
    { apply bind_inv in E as (k & A & E). rewrite (adv2_app _ _ A). cbn [bind].
      apply bind_inv in E as ([[x k']|] & A2 & E); [|discriminate]. injection E as <- <-.
      assert (N2 : k <> []) by (intros ->; cbn in A2; discriminate).
      rewrite (proj1 (p_symbol_app k N2) _ _ A2). reflexivity. }
    destruct ((at0 s =? 35) && (at1 s =? 123)). { revert d r E. apply some_ext_lift, p_brace_app. }
    destruct ((at0 s =? 35) && (at1 s =? 92)).
    { apply bind_inv in E as ((b & k) & A & E). rewrite (p_char_app _ _ _ A). cbn [bind]. now injection E as <- <-. }
    destruct ((at0 s =? 35) && (at1 s =? 40)).
    { apply bind_inv in E as (k & A & E). rewrite (adv2_app _ _ A). cbn [bind].
      destruct (skip k) as [|c k1] eqn:K.
      { change (at0 [] =? 41) with false in E. cbv iota in E. apply bind_inv in E as ((els & r') & A2 & E). apply p_vec_nil in A2. subst r'. discriminate. }
      rewrite (skip_app k false) by (rewrite K; discriminate). rewrite K. rewrite at0_same by discriminate.
      destruct (at0 (c :: k1) =? 41).
      { apply bind_inv in E as (k2 & A2 & E). rewrite (adv_app _ _ A2). cbn [bind]. now injection E as <- <-. }
      apply bind_inv in E as ((els & r') & A2 & E). destruct (at0 r' =? 41) eqn:R; [|discriminate].
      assert (N2 : r' <> []) by (eapply nz_ne; [exact R|discriminate]).
      rewrite (Hv _ _ _ A2 N2). cbn [bind]. rewrite (at0_same _ N2), R. cbn [negb] in *. cbv iota in E |- *.
      apply bind_inv in E as (k2 & A3 & E). rewrite (adv_app _ _ A3). cbn [bind]. now injection E as <- <-. }
    assert (NS : forall d r, (do x <- p_number s; match x with Some (d, r) => Ok (Some d, r) | None => do y <- p_symbol s; match y with Some (d, r) => Ok (Some d, r) | None => Err end end) = Ok (Some d, r) ->
      (do x <- p_number (s ++ T); match x with Some (d, r) => Ok (Some d, r) | None => do y <- p_symbol (s ++ T); match y with Some (d, r) => Ok (Some d, r) | None => Err end end) = Ok (Some d, r ++ T)).
    { clear E d r. intros d r E. apply bind_inv in E as ([[x k]|] & A & E).
      - injection E as <- <-. rewrite (proj1 (p_number_app s N) _ _ A). reflexivity.
      - rewrite (proj2 (p_number_app s N) A). cbn [bind]. apply bind_inv in E as ([[x k]|] & A2 & E); [|discriminate]. injection E as <- <-.
        rewrite (proj1 (p_symbol_app s N) _ _ A2). reflexivity. }
    assert (C : (at0 s =? 49) && ((at1 s =? 43) || (at1 s =? 45)) && tok_end (at2 (s ++ T)) = (at0 s =? 49) && ((at1 s =? 43) || (at1 s =? 45)) && tok_end (at2 s)).
    { destruct (Z.eqb_spec (at1 s) 0) as [Q|Q]; [|now rewrite at2_tok]. rewrite Q. change (0 =? 43) with false. change (0 =? 45) with false. now rewrite andb_false_r. }
    rewrite C. destruct ((at0 s =? 49) && ((at1 s =? 43) || (at1 s =? 45)) && tok_end (at2 s)); [|now apply NS].
    apply bind_inv in E as ([[x k]|] & A & E).
    + injection E as <- <-. rewrite (proj1 (p_symbol_app s N) _ _ A). reflexivity.
    + apply NS in E. rewrite (proj2 (p_symbol_app s N) A) in E |- *. cbn [bind] in E |- *. exact E.
  - (* p_quote *)
    intros s N d r E. cbn [p_quote] in E |- *. apply bind_inv in E as (k & A & E). rewrite (adv_app _ _ A). cbn [bind].
    assert (C : (at0 (k ++ T) =? 35) && (at1 (k ++ T) =? 92) = (at0 k =? 35) && (at1 k =? 92)).
    { destruct k as [|c k]; [reflexivity|]. rewrite (at0_k (c :: k) 35), (at1_k (c :: k) 92) by discriminate. reflexivity. }
    rewrite C. destruct ((at0 k =? 35) && (at1 k =? 92)).
    { apply bind_inv in E as ((b & k') & A2 & E). rewrite (p_char_app _ _ _ A2). cbn [bind]. now injection E as <- <-. }
    apply bind_inv in E as (([x|] & k') & A2 & E); [|discriminate]. rewrite (datum_ext n k 39 IH (or_introl eq_refl) x k' A2). cbn [bind]. now injection E as <- <-.
  - (* p_unq *)
    intros s N d r E. cbn [p_unq] in E |- *. rewrite (at1_eqb s) by (assumption || reflexivity). destruct (at1 s =? 64).
    { apply bind_inv in E as (k & A & E). rewrite (adv2_app _ _ A). cbn [bind].
      apply bind_inv in E as (([x|] & k') & A2 & E); [|discriminate]. rewrite (He _ _ _ A2). cbn [bind]. now injection E as <- <-. }
    apply bind_inv in E as (k & A & E). rewrite (adv_app _ _ A). cbn [bind].
    destruct (skip k) as [|c k1] eqn:K.
    { change (at0 [] =? 39) with false in E. change (at0 [] =? 44) with false in E. cbv iota in E.
      apply bind_inv in E as ((x & k') & A2 & E). apply p_expr_nil in A2. subst x. discriminate. }
    rewrite (skip_app k false) by (rewrite K; discriminate). rewrite K. rewrite at0_same by discriminate.
    destruct (at0 (c :: k1) =? 39).
    { apply bind_inv in E as ((x & k') & A2 & E). rewrite (Hq (c :: k1) ltac:(discriminate) _ _ A2). cbn [bind]. now injection E as <- <-. }
    destruct (at0 (c :: k1) =? 44).
    { apply bind_inv in E as ((x & k') & A2 & E). rewrite (Hu (c :: k1) ltac:(discriminate) _ _ A2). cbn [bind]. now injection E as <- <-. }
    apply bind_inv in E as (([x|] & k') & A2 & E); [|discriminate]. rewrite (He _ _ _ A2). cbn [bind]. now injection E as <- <-.
  - (* p_elems *)
    intros s [els0 tl0] r E NR. cbn [p_elems] in E |- *.
    destruct ((at0 s =? 0) || (at0 s =? 41)) eqn:Q.
    { injection E as <- <- <-. rewrite (at0_same s NR), Q. reflexivity. }
    assert (N : s <> []) by (intros ->; discriminate). rewrite (at0_same s N), Q.
    apply bind_inv in E as (([x|] & s1) & A & E); [|discriminate].
    pose proof (datum_ext2 n s IH x s1 A) as A'. rewrite (at0_same s N) in A'. rewrite A'. cbn [bind].
    destruct (skip s1) as [|c s2] eqn:K.
    { change (at0 [] =? 46) with false in E. cbn [andb] in E. cbv iota in E. apply bind_inv in E as (([a b] & k) & A2 & E). apply p_elems_nil in A2. subst k. injection E as <- <- <-. congruence. }
    rewrite (skip_app s1 false) by (rewrite K; discriminate). rewrite K. rewrite at0_same by discriminate.
    assert (D : c :: s2 = [46] \/ (at0 (c :: s2) =? 46) && negb (dot_symbol ((c :: s2) ++ T)) = (at0 (c :: s2) =? 46) && negb (dot_symbol (c :: s2))).
    { destruct (Z.eqb_spec (at0 (c :: s2)) 46) as [F|]; [|right; reflexivity]. destruct s2 as [|c' s2]; [left; unfold at0 in F; cbn [nth] in F; now subst c|right; reflexivity]. }
    destruct D as [D|D].
    { rewrite D in E. exfalso. change (at0 [46] =? 46) with true in E. change (dot_symbol [46]) with true in E. cbn [andb negb] in E. cbv iota in E.
      apply bind_inv in E as (([a b] & k) & A2 & E). apply p_elems_dot in A2. subst k. injection E as <- <- <-. congruence. }
    rewrite D. destruct ((at0 (c :: s2) =? 46) && negb (dot_symbol (c :: s2))).
    { apply bind_inv in E as (s3 & A3 & E). rewrite (adv_app _ _ A3). cbn [bind].
      apply bind_inv in E as (([e|] & s5) & A5 & E); [|discriminate].
      assert (N4 : skip s3 <> []). { intros N4. rewrite N4 in A5. change (at0 [] =? 44) with false in A5. cbv iota in A5. apply p_expr_nil in A5. discriminate. }
      rewrite (skip_app s3 false N4). rewrite (datum_ext n (skip s3) 39 IH (or_introl eq_refl) e s5 A5). cbn [bind].
      injection E as <- <- <-. now rewrite (skip_app s5 false NR). }
    apply bind_inv in E as (([a b] & k) & A2 & E). injection E as <- <- <-. rewrite (Hl _ _ _ A2 NR). reflexivity.
  - (* p_vec *)
    intros s els0 r E NR. cbn [p_vec] in E |- *.
    destruct ((at0 s =? 0) || (at0 s =? 41)) eqn:Q.
    { injection E as <- <-. rewrite (at0_same s NR), Q. reflexivity. }
    assert (N : s <> []) by (intros ->; discriminate). rewrite (at0_same s N), Q.
    apply bind_inv in E as (([x|] & s1) & A & E); [|discriminate].
    pose proof (datum_ext n s 39 IH (or_introl eq_refl) x s1 A) as A'. rewrite (at0_same s N) in A'. rewrite A'. cbn [bind].
    apply bind_inv in E as ((a & k) & A2 & E). injection E as <- <-.
    destruct (skip s1) as [|c s2] eqn:K; [apply p_vec_nil in A2; congruence|].
    rewrite (skip_app s1 false) by (rewrite K; discriminate). rewrite K. rewrite (Hv _ _ _ A2 NR). reflexivity.
Qed.
End Local.
