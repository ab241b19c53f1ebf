(** What a user of the allocator and collector relies on, stated without
    looking inside the collector: the program's own view of its heap. *)
From Verif Require Import Base GcModel.

(** Which objects a struct refers to: every field of pscm_types.h that points
    to a collected object.  Only numbers, characters, booleans, the empty list
    and the unspecified value have a [value] word that is not a pointer.  Not
    listed, because the collector does not look there (see the [_refuted]
    theorems): the saved stack of a continuation, the data words of a smob. *)
Definition immediate (ty : scm_type) : Prop :=
  ty = T_NONE \/ ty = T_NIL \/ ty = T_NUM \/ ty = T_FLOAT \/ ty = T_CHAR \/ ty = T_BOOL.
Inductive refers : gobj -> Z -> Prop :=
| rf_scm ty v : ~ immediate ty -> refers (SScm ty v) v
| rf_car d n b : refers (SList d n b) d
| rf_cdr d n b : refers (SList d n b) n
| rf_proc_name a b c d : refers (SProc a b c d) a
| rf_proc_args a b c d : refers (SProc a b c d) b
| rf_proc_body a b c d : refers (SProc a b c d) c
| rf_proc_env a b c d : refers (SProc a b c d) d
| rf_func_name a k f g : refers (SFunc a k f g) a
| rf_func_generic a k f g : refers (SFunc a k f g) g
| rf_cont_arg k a w m : refers (SCont k a w m) a
| rf_cont_wind k a w m : refers (SCont k a w m) w
| rf_cont_module k a w m : refers (SCont k a w m) m
| rf_obarray a b c d e f g h i j : refers (SModule a b c d e f g h i j) a
| rf_uses a b c d e f g h i j : refers (SModule a b c d e f g h i j) b
| rf_binder a b c d e f g h i j : refers (SModule a b c d e f g h i j) c
| rf_closure a b c d e f g h i j : refers (SModule a b c d e f g h i j) d
| rf_transformer a b c d e f g h i j : refers (SModule a b c d e f g h i j) e
| rf_modname a b c d e f g h i j : refers (SModule a b c d e f g h i j) f
| rf_kind a b c d e f g h i j : refers (SModule a b c d e f g h i j) g
| rf_interface a b c d e f g h i j : refers (SModule a b c d e f g h i j) h
| rf_exports a b c d e f g h i j : refers (SModule a b c d e f g h i j) i
| rf_autoload a b c d e f g h i j : refers (SModule a b c d e f g h i j) j
| rf_port a : refers (SPort a) a
| rf_vector l n i p : 0 <= i < n -> nth_error l (Z.to_nat i) = Some p -> refers (SVector (Some l) n) p
| rf_hash l n k i p : 0 <= i < n -> nth_error l (Z.to_nat i) = Some p -> refers (SHash (Some l) n k) p
| rf_env es pa mo p : In (Some p) es -> refers (SEnv es pa mo) p
| rf_env_parent es pa mo : refers (SEnv es pa mo) pa
| rf_env_module es pa mo : refers (SEnv es pa mo) mo
| rf_thunk a b c : refers (SPromise a b c) a
| rf_forced a b c : refers (SPromise a b c) b
| rf_macro_name a b c : refers (SMacro a b c) a
| rf_macro_transformer a b c : refers (SMacro a b c) b
| rf_macro_env a b c : refers (SMacro a b c) c
| rf_variable a : refers (SVariable a) a.

(** The program's view of its heap: the pointers it was given, how many bytes
    it asked for, and what it last stored there. *)
Record entry := mkentry { e_ptr : Z; e_size : Z; e_obj : gobj }.
Definition view := list entry.

(** A word the collector finds in a root. *)
Definition root_word (r : roots) (w : Z) : Prop :=
  In (Some w) (r_registered r) \/ In (Some w) (r_globals r) \/ In w (r_registers r)
  \/ exists ws, r_stack r = Some ws /\ In w ws.

(** Reachability in the program's view. *)
Inductive reachable (v : view) (r : roots) : Z -> Prop :=
| reach_root e : In e v -> root_word r (e_ptr e) -> reachable v r (e_ptr e)
| reach_field e f : In e v -> reachable v r (e_ptr e) -> refers (e_obj e) (e_ptr f) ->
    In f v -> reachable v r (e_ptr f).

(** After a collection the program may go on using exactly the objects it can
    still reach. *)
Definition retained (v : view) (r : roots) (v' : view) : Prop :=
  forall e, In e v' <-> In e v /\ reachable v r (e_ptr e).
(** ... or any part of them *)
Definition within (v : view) (r : roots) (v' : view) : Prop :=
  NoDup v' /\ forall e, In e v' -> In e v /\ reachable v r (e_ptr e).

(** Sizes gc_alloc handles properly: anything up to 128 bytes, and larger
    blocks in multiples of 16 bytes. *)
Definition good_size (n : Z) : Prop :=
  0 <= n < 2 ^ 32 /\ (128 < n -> n mod 16 = 0).

(** What the operating system promises of mmap: page-aligned fresh memory. *)
Definition page_size (page : Z) : Prop := 16 <= page /\ page mod 16 = 0.
Definition fresh_mapping (page : Z) (s : gc) (os : Z -> option Z) : Prop :=
  forall n st, os n = Some st ->
    0 < st /\ st mod page = 0 /\
    forall g, In g (all_segs s) -> st + n <= sstart g \/ sstart g + ssize g <= st.

(** Every history of allocations, writes and collections, with the program's
    view after it and every pointer ever handed out. *)
Inductive history (page : Z) : gc -> view -> list Z -> Prop :=
| h_init st : page_size page -> 0 < st -> st mod page = 0 ->
    history page (gc_init st page) [] []
| h_alloc s v ever os r t size p s' v' :
    history page s v ever -> good_size size -> fresh_mapping page s os ->
    gc_alloc os page r t size s = Ok (p, s') ->
    within v r v' ->
    history page s' (mkentry p size (zero_obj t) :: v') (p :: ever)
| h_write s v ever v1 e v2 o s' :
    history page s v ever -> v = v1 ++ e :: v2 ->
    tag_of o = tag_of (e_obj e) ->
    write_obj s (e_ptr e) o = Ok s' ->
    history page s' (v1 ++ mkentry (e_ptr e) (e_size e) o :: v2) ever
| h_collect s v ever r s' v' :
    history page s v ever -> run_gc r s = Ok s' -> within v r v' ->
    history page s' v' ever.

(** The object at a pointer, and whether its block is on a free list. *)
Definition object_at (s : gc) (p : Z) : option gobj :=
  option_map bobj (lookup (mem s) (p - HEADER)).
Definition on_free_list (s : gc) (p : Z) : Prop :=
  exists k, (k < NUM_BUCKETS)%nat /\ In (p - HEADER) (free s k).

Definition disjoint (a n b m : Z) : Prop := a + n <= b \/ b + m <= a.

(** A program that keeps no stale pointers: each word is null, the address of
    an object in its view, not 16-byte aligned, or outside the address range
    the collector manages. *)
Definition tame (s : gc) (v : view) (w : Z) : Prop :=
  w = 0 \/ In w (map e_ptr v) \/ w mod 16 <> 0 \/ w < heap_lo s \/ heap_hi s <= w.
Definition tame_roots (s : gc) (v : view) (r : roots) : Prop :=
  forall w, root_word r w -> tame s v w.
Definition tame_view (s : gc) (v : view) : Prop :=
  forall e w, In e v -> refers (e_obj e) w -> tame s v w.
(** arrays are as long as the struct says *)
Definition sound_arrays (o : gobj) : Prop :=
  match o with
  | SVector a n | SHash a n _ =>
      n <= match a with Some l => Z.of_nat (length l) | None => 0 end
  | _ => True
  end.
