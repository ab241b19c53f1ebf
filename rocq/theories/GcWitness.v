(** Concrete histories used beside the theorems of GcProperties.v. *)
From Verif Require Import Base GcModel GcSpec.
From Coq Require Import Lia.

Definition page : Z := 4096.
Definition no_os (n : Z) : option Z := None.
Definition st_of {A} (r : res (A * gc)) : gc := match r with Ok (_, s) => s | _ => gc_init 0 page end.
Definition gc_of (r : res gc) : gc := match r with Ok s => s | _ => gc_init 0 page end.
Definition on_stack (l : list Z) : roots := mkroots [] [] [] (Some l).

Lemma page_ok : page_size page.
Proof. split; [unfold page; lia | reflexivity]. Qed.
Lemma no_os_fresh s : fresh_mapping page s no_os.
Proof. intros n st H. discriminate. Qed.

(** a cell [c] = (v), with [v] a vector whose only element is [c] (a cycle),
    and a string nobody refers to *)
Definition w0 := gc_init 65536 page.
Definition cell : Z := 65552.
Definition vect : Z := 65600.
Definition str : Z := 65632.
Definition w1 := st_of (gc_alloc no_os page (on_stack []) GC_LIST 24 w0).
Definition w2 := st_of (gc_alloc no_os page (on_stack [cell]) GC_VECTOR 16 w1).
Definition w3 := st_of (gc_alloc no_os page (on_stack [cell; vect]) GC_STRING 16 w2).
Definition o_cell := SList vect 0 false.
Definition o_vect := SVector (Some [cell]) 1.
Definition w4 := gc_of (write_obj w3 cell o_cell).
Definition w5 := gc_of (write_obj w4 vect o_vect).
Definition v5 : view := [mkentry str 16 SString; mkentry cell 24 o_cell; mkentry vect 16 o_vect].

Ltac step_alloc s v ever os r t size p v' H :=
  apply (h_alloc page s v ever os r t size p _ v' H).

Lemma w1_history : history page w1 [mkentry cell 24 (SList 0 0 false)] [cell].
Proof.
  apply (h_alloc page w0 [] [] no_os (on_stack []) GC_LIST 24 cell w1 []).
  - apply h_init; [exact page_ok | lia | reflexivity].
  - split; [lia | intros; lia].
  - apply no_os_fresh.
  - vm_compute. reflexivity.
  - split; [constructor | intros e []].
Qed.
Lemma w2_history : history page w2 [mkentry vect 16 (SVector None 0); mkentry cell 24 (SList 0 0 false)] [vect; cell].
Proof.
  apply (h_alloc page w1 _ _ no_os (on_stack [cell]) GC_VECTOR 16 vect w2
           [mkentry cell 24 (SList 0 0 false)] w1_history).
  - split; [lia | intros; lia].
  - apply no_os_fresh.
  - vm_compute. reflexivity.
  - split; [repeat constructor; intros []|]. intros e [<- | []]. split; [left; reflexivity|].
    apply (reach_root _ _ (mkentry cell 24 (SList 0 0 false))); [left; reflexivity|].
    right. right. right. exists [cell]. cbn. auto.
Qed.
Lemma w3_history : history page w3
  [mkentry str 16 SString; mkentry cell 24 (SList 0 0 false); mkentry vect 16 (SVector None 0)] [str; vect; cell].
Proof.
  apply (h_alloc page w2 _ _ no_os (on_stack [cell; vect]) GC_STRING 16 str w3
           [mkentry cell 24 (SList 0 0 false); mkentry vect 16 (SVector None 0)] w2_history).
  - split; [lia | intros; lia].
  - apply no_os_fresh.
  - vm_compute. reflexivity.
  - split.
    + constructor; [cbn; intros [E | []]; discriminate | repeat constructor; intros []].
    + intros e [<- | [<- | []]].
      * split; [right; left; reflexivity|].
        apply (reach_root _ _ (mkentry cell 24 (SList 0 0 false))); [right; left; reflexivity|].
        right. right. right. exists [cell; vect]. cbn. auto.
      * split; [left; reflexivity|].
        apply (reach_root _ _ (mkentry vect 16 (SVector None 0))); [left; reflexivity|].
        right. right. right. exists [cell; vect]. cbn. auto.
Qed.
Lemma w5_history : history page w5 v5 [str; vect; cell].
Proof.
  apply (h_write page w4 [mkentry str 16 SString; mkentry cell 24 o_cell; mkentry vect 16 (SVector None 0)] _
           [mkentry str 16 SString; mkentry cell 24 o_cell] (mkentry vect 16 (SVector None 0)) [] o_vect w5).
  - apply (h_write page w3 [mkentry str 16 SString; mkentry cell 24 (SList 0 0 false); mkentry vect 16 (SVector None 0)]
             _ [mkentry str 16 SString] (mkentry cell 24 (SList 0 0 false)) [mkentry vect 16 (SVector None 0)] o_cell w4).
    + exact w3_history.
    + reflexivity.
    + reflexivity.
    + vm_compute. reflexivity.
  - reflexivity.
  - reflexivity.
  - vm_compute. reflexivity.
Qed.
Definition r5 : roots := on_stack [7; vect].
Lemma r5_vect : reachable v5 r5 vect.
Proof.
  apply (reach_root _ _ (mkentry vect 16 o_vect)); [right; right; left; reflexivity|].
  right. right. right. exists [7; vect]. cbn. auto.
Qed.
(** the cell is reachable only through the vector *)
Lemma r5_cell : reachable v5 r5 cell.
Proof.
  apply (reach_field v5 r5 (mkentry vect 16 o_vect) (mkentry cell 24 o_cell));
    [right; right; left; reflexivity | exact r5_vect | | right; left; reflexivity].
  cbn. apply (rf_vector [cell] 1 0 cell); [lia | reflexivity].
Qed.
Lemma r5_str : ~ reachable v5 r5 str.
Proof.
  intros H. assert (G : forall p, reachable v5 r5 p -> p = vect \/ p = cell).
  { induction 1 as [e I R | e f I R IH RF J].
    - destruct R as [[] | [[] | [[] | [ws [E W]]]]]. injection E as <-.
      destruct I as [<- | [<- | [<- | []]]]; cbn in *; auto.
      exfalso. vm_compute in W. intuition discriminate.
    - destruct J as [<- | [<- | [<- | []]]]; cbn in *; auto.
      exfalso. destruct I as [<- | [<- | [<- | []]]]; cbn in RF; inversion RF; subst; try discriminate.
      match goal with K : nth_error _ _ = Some _ |- _ => apply nth_error_In in K; vm_compute in K; intuition discriminate end. }
  destruct (G str H) as [E | E]; discriminate E.
Qed.
Lemma r5_tame : tame_roots w5 v5 r5 /\ tame_view w5 v5 /\ (forall e, In e v5 -> sound_arrays (e_obj e)).
Proof.
  split; [|split].
  - intros w [[] | [[] | [[] | [ws [E I]]]]]. injection E as <-. destruct I as [<- | [<- | []]].
    + right. right. left. discriminate.
    + right. left. cbn. auto.
  - intros e w I R. destruct I as [<- | [<- | [<- | []]]]; cbn in R; inversion R; subst.
    + right. left. cbn. auto.
    + left. reflexivity.
    + match goal with K : nth_error _ _ = Some _ |- _ => apply nth_error_In in K; destruct K as [<- | []] end.
      right. left. cbn. auto.
  - intros e [<- | [<- | [<- | []]]]; cbn; auto; lia.
Qed.
Definition w6 := gc_of (run_gc r5 w5).
Lemma w6_run : run_gc r5 w5 = Ok w6.
Proof. vm_compute. reflexivity. Qed.
