(** A concrete interpreter over list nodes to run examples: programs placed on the heap, a few
    primitives (those of EvalWitness) and the initial state. *)
From Coq Require Import String Lia.
From Verif Require Import Base ParseModel PrintModel EnvModel EvalModel EvalWitness CellModel CellSpec CellProofs CellProofs2.
Local Open Scope string_scope.
Local Open Scope Z_scope.
Local Open Scope list_scope.

(* write an expression into new nodes *)
Fixpoint place (v : val) (h : list cell) {struct v} : option (cval * list cell) :=
  match v with
  | VNone => Some (CNone, h) | VNil => Some (CNil, h) | VBool b => Some (CBool b, h) | VInt z => Some (CInt z, h)
  | VChar c => Some (CChar c, h) | VStr s => Some (CStr s, h) | VSym s => Some (CSym s, h) | VFunc n a => Some (CFunc n a, h)
  | VList ns d =>
      match (fix go (ns : list val) (h : list cell) : option (nat * list cell) :=
         match ns with
         | [] => None
         | [x] => match place x h with Some (c, h1) => Some (length h1, h1 ++ [mkCell c None d]) | None => None end
         | x :: r =>
             match go r h with
             | Some (b, h1) => match place x h1 with Some (c, h2) => Some (length h2, h2 ++ [mkCell c (Some b) false]) | None => None end
             | None => None
             end
         end) ns h with
      | Some (a, h1) => Some (CPair a, h1)
      | None => None
      end
  | _ => None
  end.
Lemma place_rep : forall v h c h', place v h = Some (c, h') -> (exists new, h' = h ++ new) /\ rep [] h' c v.
Proof.
  fix IH 1. intros v h c h' H. destruct v; try discriminate H; try (cbn [place] in H; injection H as <- <-; split; [exists []; now rewrite app_nil_r|constructor]).
  cbn [place] in H. match type of H with match ?g ns h with _ => _ end = _ => set (go := g) in H end.
  assert (G : forall l h a h1, go l h = Some (a, h1) -> (exists new, h1 = h ++ new) /\ reps [] h1 a l dotted).
  { clear H h c h'. induction l as [|x l IHl]; intros h a h1 H; [discriminate H|]. destruct l as [|y l].
    - cbn in H. destruct (place x h) as [[c h2]|] eqn:PX; [|discriminate H]. injection H as <- <-. destruct (IH _ _ _ _ PX) as [[n1 ->] R]. split; [exists (n1 ++ [mkCell c None dotted]); now rewrite app_assoc|].
      change dotted with (c_dot (mkCell c None dotted)) at 2. apply reps_last; [apply nth_new|intros []|reflexivity|]. cbn [c_data]. apply rep_app; [intros ? []|exact R].
    - change (go (x :: y :: l) h) with (match go (y :: l) h with Some (b, h1) => match place x h1 with Some (c, h2) => Some (length h2, h2 ++ [mkCell c (Some b) false]) | None => None end | None => None end) in H.
      destruct (go (y :: l) h) as [[b h2]|] eqn:GL; [|discriminate H]. destruct (IHl _ _ _ GL) as [[n1 ->] R1]. destruct (place x (h ++ n1)) as [[c h2]|] eqn:PX; [|discriminate H]. injection H as <- <-.
      destruct (IH _ _ _ _ PX) as [[n2 ->] R2]. split; [exists (n1 ++ n2 ++ [mkCell c (Some b) false]); now rewrite !app_assoc|].
      eapply reps_more; [apply nth_new|intros []|reflexivity|reflexivity| |].
      + cbn [c_data]. apply rep_app; [intros ? []|exact R2].
      + apply rep_app; [intros ? []|]. apply rep_app; [intros ? []|]. exact R1. }
  destruct (go ns h) as [[a h1]|] eqn:GN; [|discriminate H]. injection H as <- <-. destruct (G _ _ _ _ GN) as [E R]. split; [exact E|now constructor].
Qed.

Definition cints (vs : list cval) : list Z := map (fun v => match v with CInt z => z | _ => 0 end) vs.
(* the nodes of a list, at the end of the heap *)
Fixpoint list_nodes (vs : list cval) (n : nat) : list cell :=
  match vs with [] => [] | [v] => [mkCell v None false] | v :: r => mkCell v (Some (S n)) false :: list_nodes r (S n) end.
Definition cprim0 (nm : list Z) (vs : list cval) (h : list cell) : option (cval * list cell * list Z) :=
  let is s := beq nm (bs s) in
  let val v : option (cval * list cell * list Z) := Some (v, [], []) in
  if is "car" then match vs with CPair a :: _ => match nth_error h a with Some c => val (c_data c) | None => None end | _ => None end
  else if is "cdr" then                                                          (* pscm.h cdr 601-624 *)
    match vs with
    | CPair a :: _ =>
        match nth_error h a with
        | Some c =>
            match c_next c with
            | None => val CNil
            | Some b => match nth_error h b with Some d => if c_dot d then val (c_data d) else val (CPair b) | None => None end
            end
        | None => None
        end
    | _ => None
    end
  else if is "cons" then                                                         (* list.cc scm_cons 68-91 *)
    match vs with
    | [a; b] =>
        let n := length h in
        match b with
        | CPair q => Some (CPair n, [mkCell a (Some q) false], [])
        | CNil => Some (CPair n, [mkCell a None false], [])
        | _ => Some (CPair n, [mkCell a (Some (S n)) false; mkCell b None true], [])
        end
    | _ => None
    end
  else if is "list" then match vs with [] => val CNil | _ => Some (CPair (length h), list_nodes vs (length h), []) end
  else if is "+" then val (CInt (fold_left Z.add (cints vs) 0))
  else if is "*" then val (CInt (fold_left Z.mul (cints vs) 1))
  else if is "-" then match cints vs with [a] => val (CInt (- a)) | a :: r => val (CInt (fold_left Z.sub r a)) | [] => None end
  else if is "<" then match cints vs with [a; b] => val (CBool (a <? b)) | _ => None end
  else if is "=" then match cints vs with [a; b] => val (CBool (a =? b)) | _ => None end
  else if is "null?" then match vs with [v] => val (CBool match v with CNil => true | _ => false end) | _ => None end
  else if is "not" then match vs with [v] => val (CBool (negb (c_truthy v))) | _ => None end
  else if is "display" then
    match vs with CInt z :: _ => Some (CNone, [], dec z) | CSym s :: _ => Some (CNone, [], s) | CStr s :: _ => Some (CNone, [], s) | CNil :: _ => Some (CNone, [], bs "()") | _ => None end
  else None.
Lemma ints_rep X h vs ws : Forall2 (rep X h) vs ws -> cints vs = ints ws.
Proof. intro F. induction F as [|x y l m R F IH]; [reflexivity|]. cbn [cints ints map]. fold (cints l) (ints m). rewrite IH. inversion R; reflexivity. Qed.
Lemma list_nodes_ok X : forall vs ws h, bounded X h -> Forall2 (rep X h) vs ws -> vs <> [] -> reps X (h ++ list_nodes vs (length h)) (length h) ws false.
Proof.
  induction vs as [|v vs IH]; intros ws h Bd F NE; [congruence|]. inversion F as [|? w ? ws' R F']; subst. destruct vs as [|v2 vs].
  - inversion F'; subst. cbn [list_nodes]. apply (reps_last _ _ _ (mkCell v None false)); [apply nth_new|now apply len_bounded|reflexivity|]. apply rep_app; auto.
  - cbn [list_nodes]. set (c := mkCell v (Some (S (length h))) false).
    change (h ++ c :: match vs with [] => [mkCell v2 None false] | _ :: _ => mkCell v2 (Some (S (S (length h)))) false :: list_nodes vs (S (S (length h))) end) with (h ++ [c] ++ list_nodes (v2 :: vs) (S (length h))).
    rewrite app_assoc. assert (L : S (length h) = length (h ++ [c])) by (rewrite app_length; cbn [length]; lia). assert (B1 : bounded X (h ++ [c])) by (now apply bounded_app).
    eapply (reps_more _ _ _ c); [|now apply len_bounded|reflexivity|reflexivity| |].
    + rewrite nth_error_app1 by lia. apply nth_new.
    + apply rep_app; auto. apply rep_app; auto.
    + rewrite L. apply IH; auto; [|congruence]. revert F'. apply Forall2_imp. apply rep_app. exact Bd.
Qed.
Lemma cprim0_agrees : prims_agree cprim0 prim0.
Proof.
  intros X h nm vs ws Bd F.
  assert (K : forall r v, rep X h r v -> rep X (h ++ []) r v) by (intros r v R; now rewrite app_nil_r).
  unfold cprim0, prim0.
  destruct (beq nm (bs "car")).
  { destruct F as [|x y l m R F]; [reflexivity|]. inversion R as [| | | | | | | | |a us d RS| |]; subst; try reflexivity. apply reps_inv in RS. destruct RS as (c & w & t & -> & N & _ & RW & _). rewrite N. exists w. auto. }
  destruct (beq nm (bs "cdr")).
  { destruct F as [|x y l m R F]; [reflexivity|]. inversion R as [| | | | | | | | |a us d RS| |]; subst; try reflexivity. apply reps_inv in RS. destruct RS as (c & w & t & -> & N & _ & RW & T & D). rewrite N.
    destruct (c_next c) as [b|]; [|cbn in T; subst t; exists VNil; split; [reflexivity|constructor]]. destruct D as [_ RB]. assert (RB2 := RB). apply reps_inv in RB. destruct RB as (cb & x & t2 & -> & NB & _ & RX & T2 & D2). rewrite NB.
    destruct (c_next cb) as [b2|].
    - destruct D2 as [-> D2]. destruct t2 as [|y t2]; [inversion D2|]. exists (VList (x :: y :: t2) d). split; [reflexivity|]. apply K. now constructor.
    - cbn in T2. subst t2. rewrite <- D2. destruct d; cbn [cdr_val]; eexists; (split; [reflexivity|]); apply K; [exact RX|now constructor]. }
  destruct (beq nm (bs "cons")).
  { destruct F as [|x y l m R F]; [reflexivity|]. destruct F as [|x2 y2 l m R2 F]; [reflexivity|]. destruct F; [|reflexivity].
    assert (DOT : rep X (h ++ [mkCell x (Some (S (length h))) false; mkCell x2 None true]) (CPair (length h)) (VList [y; y2] true)).
    { constructor. eapply (reps_more _ _ _ (mkCell x (Some (S (length h))) false)); [|now apply len_bounded|reflexivity|reflexivity|apply rep_app; auto|].
      - rewrite nth_error_app2 by lia. now rewrite Nat.sub_diag.
      - change true with (c_dot (mkCell x2 None true)) at 2. apply reps_last; [| |reflexivity|apply rep_app; auto].
        + rewrite nth_error_app2 by lia. now replace (S (length h) - length h)%nat with 1%nat by lia.
        + intro I0. specialize (Bd _ I0). lia. }
    destruct R2; try (eexists; split; [reflexivity|exact DOT]).
    - eexists. split; [reflexivity|]. constructor. apply (reps_last _ _ _ (mkCell x None false)); [apply nth_new|now apply len_bounded|reflexivity|apply rep_app; auto].
    - eexists. split; [reflexivity|]. constructor. apply (reps_more _ _ _ (mkCell x (Some a) false) _ a); [apply nth_new|now apply len_bounded|reflexivity|reflexivity|apply rep_app; auto|apply rep_app; auto]. }
  destruct (beq nm (bs "list")).
  { destruct F as [|x y l m R F]; [exists VNil; split; [reflexivity|constructor]|]. eexists. split; [reflexivity|]. constructor. apply list_nodes_ok; auto. discriminate. }
  rewrite (ints_rep _ _ _ _ F).
  destruct (beq nm (bs "+")); [eexists; split; [reflexivity|constructor]|].
  destruct (beq nm (bs "*")); [eexists; split; [reflexivity|constructor]|].
  destruct (beq nm (bs "-")). { destruct (ints ws) as [|a [|b r]]; [reflexivity| |]; eexists; (split; [reflexivity|constructor]). }
  destruct (beq nm (bs "<")). { destruct (ints ws) as [|a [|b [|d r]]]; try reflexivity. eexists; (split; [reflexivity|constructor]). }
  destruct (beq nm (bs "=")). { destruct (ints ws) as [|a [|b [|d r]]]; try reflexivity. eexists; (split; [reflexivity|constructor]). }
  destruct (beq nm (bs "null?")). { destruct F as [|x y l m R F]; [reflexivity|]. destruct F; [|reflexivity]. eexists; split; [reflexivity|]. inversion R; constructor. }
  destruct (beq nm (bs "not")). { destruct F as [|x y l m R F]; [reflexivity|]. destruct F; [|reflexivity]. eexists; split; [reflexivity|]. replace (c_truthy x) with (truthy y) by (inversion R; reflexivity). constructor. }
  destruct (beq nm (bs "display")); [|reflexivity].
  destruct F as [|x y l m R F]; [reflexivity|]. destruct R; try reflexivity; eexists; (split; [reflexivity|constructor]).
Qed.

Definition cglobals : list (list Z * cval) := map (fun p => (fst p, match snd p with VFunc n a => CFunc n a | _ => CNone end)) globals.
Definition cst0 (h : list cell) : cstate := mkCS h [cglobals] [mkCMod [] []] 0 [] [].
Lemma cst0_ok h : same_state [] (cst0 h) st0.
Proof.
  split; cbn [cst0 st0 cs_frames cs_mods cs_cur cs_out s_frames s_mods s_cur s_dyn d_out dyn0]; auto.
  - constructor; [|constructor]. unfold same_alist, cglobals, globals. repeat (constructor; [split; [reflexivity|constructor]|]). constructor.
  - constructor; [|constructor]. split; [constructor|reflexivity].
  - constructor.
Qed.
(* evaluate the expressions of a program text one after the other, each placed on the heap *)
Fixpoint crun (n : nat) (es : list val) (s : cstate) : cout cval * list nat :=
  match es with
  | [] => (CRet CNone s, [])
  | x :: r =>
      match place x (cs_cells s) with
      | Some (c, h) =>
          match ceval cprim0 n g_env false c (with_cells s h), r with
          | (CRet _ s', o), _ :: _ => let (k, o') := crun n r s' in (k, o ++ o')
          | k, _ => k
          end
      | None => (COther, [])
      end
  end.
Definition cgo (t : string) : option (cval * list Z * list nat) :=
  match crun 200 (prog t) (cst0 []) with (CRet v s, o) => Some (v, cs_out s, o) | _ => None end.
