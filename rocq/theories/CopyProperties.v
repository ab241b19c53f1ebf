(** Locations of expanded code: C176, C177. *)
From Coq Require Import Lia.
From Verif Require Import Base CopyModel CopySpec CopyProofs.
Local Open Scope list_scope.
Local Open Scope Z_scope.

(** * C176 *)
(* a location is copied *)
Theorem c176_copy : forall m d s, owned m -> d <> s ->
  exists m', copy_location m (Some d) (Some s) = Ok m' /\ owned m' /\
    place_of m' d = match place_of m s with Some p => Some p | None => place_of m d end /\
    forall x, x <> d -> place_of m' x = place_of m x.
Proof. intros m d s O N. destruct (copy_ok m d s O N) as (m' & E & W & A & B). exists m'. auto. Qed.
Print Assumptions c176_copy.
(* a location is set; without a file name the old one stays *)
Theorem c176_set : forall m o f line col, owned m ->
  exists m', set_location m (Some o) f line col = Ok m' /\ owned m' /\
    place_of m' o = Some (match f with Some n => Some n | None => match place_of m o with Some (n, _, _) => n | None => None end end, line, col) /\
    forall x, x <> o -> place_of m' x = place_of m x.
Proof. intros m o f line col O. destruct (set_ok m o f line col O) as (m' & E & W & A & B). exists m'. auto. Qed.
Print Assumptions c176_set.
(* a macro is expanded, and no operand stands at its own position in the expansion: the
   expansion gets the place of the call; what is not part of it keeps its place; every
   part keeps its place or gets that of a part of the call *)
Theorem c176_expansion : forall m expanded call, owned m -> no_own_position expanded call ->
  exists m', relocate m expanded call = Ok m' /\ owned m' /\
    (place_of m (id_of call) <> None -> ~ proper_part expanded (id_of expanded) -> place_of m' (id_of expanded) = place_of m (id_of call)) /\
    (forall x, ~ part expanded x -> place_of m' x = place_of m x) /\
    (forall x, place_of m' x = place_of m x \/ exists y, part call y /\ place_of m' x = place_of m y).
Proof.
  intros m d s O N. destruct (rec_good d s m O N) as (m' & E & (G1 & G2 & G3 & _) & _). exists m'.
  split; [now apply relocate_eq|]. split; [exact G1|]. split; [intros H P; eapply rec_top; eauto|]. split; [exact G2|exact G3].
Qed.
Print Assumptions c176_expansion.
(* an expansion that shares nothing with the call: exactly the parts that stand opposite
   to a part of the call get its place *)
Theorem c176_fresh : forall m expanded call, owned m -> NoDup (parts expanded) -> (forall x, In x (parts expanded) -> ~ In x (parts call)) ->
  exists m', relocate m expanded call = Ok m' /\ owned m' /\
    (forall x y, opposite_placed m expanded call x y -> place_of m' x = place_of m y) /\
    (forall x, (forall y, ~ opposite_placed m expanded call x y) -> place_of m' x = place_of m x).
Proof.
  intros m d s O N D. destruct (rec_good d s m O (disjoint_no_own _ _ D)) as (m' & E & (G1 & _) & _). exists m'.
  split; [apply relocate_eq; auto; now apply disjoint_no_own|]. split; [exact G1|]. eapply rec_exact; eauto.
Qed.
Print Assumptions c176_fresh.
(* whatever is read, expanded with care, taken apart and collected: no string is freed
   twice or read after it was freed *)
Theorem c176_history : forall acts, Forall careful acts -> exists m, perform_all empty acts = Ok m /\ owned m.
Proof.
  intros acts C. assert (G : forall m, owned m -> exists m', perform_all m acts = Ok m' /\ owned m').
  { induction C as [|a acts Ca C IH]; intros m O; [exists m; auto|]. cbn [perform_all].
    assert (X : exists m1, perform m a = Ok m1 /\ owned m1).
    { destruct a as [o f l c|e c|e d|d s|o]; cbn [perform careful] in *.
      - destruct (set_ok m o f l c O) as (m1 & E & W & _). eauto.
      - destruct (c176_expansion m e c O Ca) as (m1 & E & W & _). eauto.
      - unfold take_location. destruct (m_loc m e) eqn:Q; [eauto|]. destruct (m_loc m d) eqn:R; [|eauto].
        destruct (copy_ok m e d O) as (m1 & E & W & _); [congruence|eauto].
      - destruct (copy_ok m d s O Ca) as (m1 & E & W & _). eauto.
      - destruct (sweep_ok m o O) as (m1 & E & W & _). eauto. }
    destruct X as (m1 & -> & O1). cbn [bind]. now apply IH. }
  apply G. split; discriminate.
Qed.
Print Assumptions c176_history.
(* (unless c e) at 3:1, expanded to (if c () e) made from new pairs: 10 = the expansion,
   11 = if, 12 = (), the operands 2 and 3 at other positions *)
Definition call1 : obj := Pair 0 [Some (Leaf 1); Some (Leaf 2); Some (Leaf 3)].
Definition exp1 : obj := Pair 10 [Some (Leaf 11); Some (Pair 12 [Some (Leaf 13); Some (Leaf 2)]); Some (Leaf 14); Some (Leaf 3)].
Definition reading : list act :=
  [Set_ 0 (Some [97]) 3 1; Set_ 1 (Some [97]) 3 2; Set_ 2 (Some [97]) 3 9; Set_ 3 (Some [97]) 3 11].
Example c176_ex : match perform_all empty (reading ++ [Expand exp1 call1; Sweep 0; Sweep 1]) with
  | Ok m => map (place_of m) [10; 11; 12; 13; 14; 2; 3]%nat | _ => [] end =
  [Some (Some [97], 3, 1); Some (Some [97], 3, 2); Some (Some [97], 3, 9); None; Some (Some [97], 3, 11); Some (Some [97], 3, 9); Some (Some [97], 3, 11)].
Proof. vm_compute. reflexivity. Qed.
Example c176_ex_careful : Forall careful (reading ++ [Expand exp1 call1; Sweep 0; Sweep 1]) /\ ~ proper_part exp1 (id_of exp1).
Proof.
  split.
  - repeat apply Forall_cons; try exact Logic.I; try apply Forall_nil. intros x H. inversion H as [? ? E|i j k l l' a b x' y' Ha Hb R]; subst.
    destruct k as [|[|[|[|[|k]]]]]; cbn in Ha, Hb; try discriminate; injection Ha as <-; injection Hb as <-; inversion R.
  - cbn. intros (e & I & P). apply part_parts in P. destruct I as [E|[E|[E|[E|[]]]]]; injection E as <-; cbn in P; intuition discriminate.
Qed.

(** * C177 *)
(* an operand at its own position: the file name is freed, then read *)
Theorem c177_own_position_refuted : forall m expanded call x, owned m -> named m -> opposite_placed m expanded call x x ->
  relocate m expanded call = UB.
Proof. intros m d s x O N H. unfold relocate. rewrite (own_position d s x m O N H). reflexivity. Qed.
Print Assumptions c177_own_position_refuted.
(* so with every macro that expands (name x ...) to (op x ...) *)
Theorem c177_begin_refuted : forall m e op c name x rest rest', owned m -> named m ->
  place_of m c <> None -> place_of m (id_of x) <> None ->
  relocate m (Pair e (op :: Some x :: rest)) (Pair c (name :: Some x :: rest')) = UB.
Proof.
  intros m e op c name x rest rest' O N C X. apply (c177_own_position_refuted _ _ _ (id_of x) O N).
  apply (oppl_elem m e c 1 _ _ x x); auto. now constructor.
Qed.
Print Assumptions c177_begin_refuted.
Example c177_ex : match perform_all empty reading with
  | Ok m => match relocate m (Pair 10 [Some (Leaf 11); Some (Leaf 2); Some (Leaf 3)]) call1 with UB => 1 | _ => 0 end | _ => 0 end = 1.
Proof. vm_compute. reflexivity. Qed.
(* operands at other positions lose their places: (m a b) expanded to (op b a) *)
Theorem c177_moved_refuted : forall m e op c name a b, owned m -> NoDup [e; op; c; name; a; b] -> 
  place_of m c <> None -> place_of m a <> None ->
  exists m', relocate m (Pair e [Some (Leaf op); Some (Leaf b); Some (Leaf a)]) (Pair c [Some (Leaf name); Some (Leaf a); Some (Leaf b)]) = Ok m' /\
    place_of m' a = place_of m a /\ place_of m' b = place_of m a.
Proof.
  intros m e op c name a b O ND C A.
  assert (NE : e <> c /\ e <> name /\ e <> a /\ e <> b /\ op <> name /\ op <> a /\ op <> b /\ a <> b).
  { repeat match goal with H : NoDup (_ :: _) |- _ => apply NoDup_cons_iff in H; destruct H as (?H & ?H) end. cbn in *. intuition congruence. }
  destruct NE as (E1 & E2 & E3 & E4 & E5 & E6 & E7 & E8).
  set (d := Pair e [Some (Leaf op); Some (Leaf b); Some (Leaf a)]). set (s := Pair c [Some (Leaf name); Some (Leaf a); Some (Leaf b)]).
  assert (N : no_own_position d s).
  { intros x H. unfold d, s in H. clear d s. inversion H as [? ? E0 E|i j k l l' a' b' x' y' Ha Hb R]; [cbn in *; congruence|]. subst i l j l' x' y'.
    destruct k as [|[|[|k]]]; cbn in Ha, Hb; try (destruct k; discriminate); injection Ha as <-; injection Hb as <-; inversion R; subst; cbn in *; congruence. }
  destruct (c176_expansion m d s O N) as (m' & E & _). exists m'. split; [exact E|].
  destruct (rec_good d s m O N) as (m1 & E' & _). rewrite (relocate_eq d s m m1 O N E') in E. injection E as ->.
  rewrite copy_rec_eq in E'. cbn [id_of d s] in E'. destruct (m_loc m c) eqn:Q; [|exfalso; apply C; now apply place_none].
  destruct (copy_ok m e c O E1) as (m2 & F2 & O2 & S2 & P2). rewrite F2 in E'. cbn [bind walk] in E'.
  (* name -> op *)
  assert (X : forall mm dd ss, owned mm -> dd <> ss -> exists mm', copy_rec mm (Leaf dd) (Leaf ss) = Ok mm' /\ owned mm' /\ same_others mm mm' dd /\ place_of mm' dd = match place_of mm ss with Some p => Some p | None => place_of mm dd end).
  { clear. intros mm dd ss O N. rewrite copy_rec_eq. cbn [id_of]. destruct (m_loc mm ss) eqn:Q.
    - destruct (copy_ok mm dd ss O N) as (m1 & F & W & S1 & P1). rewrite F. cbn [bind]. eauto 6.
    - exists mm. split; [reflexivity|]. split; [exact O|]. split; [intros ? _; reflexivity|]. apply place_none in Q. now rewrite Q. }
  destruct (X m2 op name O2 E5) as (m3 & F3 & O3 & S3 & P3). rewrite F3 in E'. cbn [bind] in E'.
  destruct (X m3 b a O3 (not_eq_sym E8)) as (m4 & F4 & O4 & S4 & P4). rewrite F4 in E'. cbn [bind] in E'.
  destruct (X m4 a b O4 E8) as (m5 & F5 & O5 & S5 & P5). rewrite F5 in E'. cbn [bind] in E'. injection E' as ->.
  assert (PA : place_of m3 a = place_of m a) by (rewrite S3, S2; auto).
  assert (PB : place_of m4 b = place_of m a) by (rewrite P4, PA; destruct (place_of m a); congruence).
  split; [rewrite P5, PB; destruct (place_of m a); congruence|rewrite S5; auto].
Qed.
Print Assumptions c177_moved_refuted.
(* an object that exists once, such as (): all expansions to it are at the place of the
   last call *)
Theorem c177_constant_refuted : forall m n c1 c2, owned m -> n <> id_of c1 -> n <> id_of c2 -> place_of m (id_of c1) <> None -> place_of m (id_of c2) <> None ->
  exists m1 m2, relocate m (Leaf n) c1 = Ok m1 /\ place_of m1 n = place_of m (id_of c1) /\
    relocate m1 (Leaf n) c2 = Ok m2 /\ place_of m2 n = place_of m (id_of c2).
Proof.
  intros m n c1 c2 O N1 N2 P1 P2.
  assert (X : forall c, n <> id_of c -> no_own_position (Leaf n) c) by (intros c N x H; inversion H; subst; cbn in *; congruence).
  destruct (c176_expansion m (Leaf n) c1 O (X c1 N1)) as (m1 & E1 & O1 & A1 & B1 & _). exists m1.
  assert (K : place_of m1 (id_of c2) = place_of m (id_of c2)).
  { apply B1. intro H. inversion H; subst. cbn in *. congruence. }
  destruct (c176_expansion m1 (Leaf n) c2 O1 (X c2 N2)) as (m2 & E2 & O2 & A2 & _). exists m2.
  split; [exact E1|]. split; [apply A1; auto|]. split; [exact E2|]. rewrite <- K. apply A2; [now rewrite K|auto].
Qed.
Print Assumptions c177_constant_refuted.
