(** Model of the owners of source locations: source_location.cc set_source_location,
    copy_source_location, copy_source_location_recursive; macro.cc 146-155 (locations of
    expanded code); pscm.h 601-671 (cdr, cadr ... cadddr give a location); gc.cc sweep_scm.

    Simplifications.
    - An object is an identity; [obj] carries the identities it is made of, so an
      object that occurs twice has two occurrences with one identity.  Copying never
      changes the shape of an object.  Cyclic code is not represented.
    - malloc does not fail; a freed string is never allocated again at the same
      address (the worst case for a program that reads freed memory is UB anyway). *)
From Verif Require Import Base.
Local Open Scope list_scope.
Local Open Scope Z_scope.

(* pscm_types.h 11-15: SCM_SourceLocation; the file name is a pointer to an owned string *)
Record loc := mkL { l_file : option nat; l_line : Z; l_col : Z }.
(* source_location.cc 17, 33, pscm_types.h 43: the strings allocated by strdup (None: freed), and the source_loc field of every object *)
Record mem := mkM { m_bufs : list (option (list Z)); m_loc : nat -> option loc }.
(* model only: one field changed *)
Definition put (m : mem) (o : nat) (l : option loc) : mem :=
  mkM (m_bufs m) (fun x => if Nat.eqb x o then l else m_loc m x).
(* source_location.cc 17, 33: strdup *)
Definition strdup (m : mem) (s : list Z) : mem * nat :=
  (mkM (m_bufs m ++ [Some s]) (m_loc m), length (m_bufs m)).
(* source_location.cc 33: strdup reads the string; UB if it was freed *)
Definition read_str (m : mem) (p : nat) : res (list Z) :=
  match nth_error (m_bufs m) p with Some (Some s) => Ok s | _ => UB end.
(* model only *)
Fixpoint set_nth {A} (n : nat) (v : A) (l : list A) : list A :=
  match n, l with
  | O, _ :: r => v :: r
  | S n, x :: r => x :: set_nth n v r
  | _, [] => []
  end.
(* source_location.cc 16, 31, gc.cc 676: free; free(NULL) does nothing; UB if it was freed *)
Definition free_str (m : mem) (p : option nat) : res mem :=
  match p with
  | None => Ok m
  | Some p => match nth_error (m_bufs m) p with
              | Some (Some _) => Ok (mkM (set_nth p None (m_bufs m)) (m_loc m))
              | _ => UB
              end
  end.
(* source_location.cc set_source_location 7-21; the name given is not an owned string *)
Definition set_location (m : mem) (o : option nat) (file : option (list Z)) (line col : Z) : res mem :=
  match o with
  | None => Ok m
  | Some o =>
      let m := match m_loc m o with Some _ => m | None => put m o (Some (mkL None 0 0)) end in
      let old := match m_loc m o with Some l => l_file l | None => None end in
      match file with
      | Some name =>
          do m <- free_str m old;
          let (m, p) := strdup m name in
          Ok (put m o (Some (mkL (Some p) line col)))
      | None => Ok (put m o (Some (mkL old line col)))
      end
  end.
(* source_location.cc copy_source_location 24-36 *)
Definition copy_location (m : mem) (dest src : option nat) : res mem :=
  match dest, src with
  | Some d, Some s =>
      match m_loc m s with
      | None => Ok m
      | Some _ =>
          let m := match m_loc m d with Some _ => m | None => put m d (Some (mkL None 0 0)) end in
          do m <- free_str m (match m_loc m d with Some l => l_file l | None => None end);
          match m_loc m s with
          | None => UB
          | Some from =>
              do mf <- match l_file from with
                       | Some p => do t <- read_str m p; let (m, q) := strdup m t in Ok (m, Some q)
                       | None => Ok (m, None)
                       end;
              let (m, f) := mf in
              Ok (put m d (Some (mkL f (l_line from) (l_col from))))
          end
      end
  | _, _ => Ok m
  end.
(* pscm_types.h 16-46: an object: of a list also its elements (data, may be NULL) *)
Inductive obj :=
| Leaf (id : nat)
| Pair (id : nat) (elems : list (option obj)).
(* model only: its address *)
Definition id_of (o : obj) : nat := match o with Leaf i => i | Pair i _ => i end.
(* source_location.cc copy_source_location_recursive 39-60 *)
Fixpoint copy_rec (m : mem) (dest src : obj) {struct dest} : res mem :=
  match m_loc m (id_of src) with
  | None => Ok m
  | Some _ =>
      do m <- copy_location m (Some (id_of dest)) (Some (id_of src));
      match dest, src with
      | Pair _ ds, Pair _ ss =>
          (fix walk m ds ss {struct ds} :=
             match ds, ss with
             | d :: ds, s :: ss =>
                 do m <- match d, s with Some d, Some s => copy_rec m d s | _, _ => Ok m end;
                 walk m ds ss
             | _, _ => Ok m
             end) m ds ss
      | _, _ => Ok m
      end
  end.
(* macro.cc expand_macro_call 148-155: the locations of the expansion *)
Definition relocate (m : mem) (expanded call : obj) : res mem :=
  do m <- copy_rec m expanded call;
  match m_loc m (id_of expanded), m_loc m (id_of call) with
  | None, Some _ => copy_location m (Some (id_of expanded)) (Some (id_of call))
  | _, _ => Ok m
  end.
(* pscm.h cadr, caddr, cadddr 663-670: the location of the list for an element without one *)
Definition take_location (m : mem) (elem data : nat) : res mem :=
  match m_loc m elem, m_loc m data with
  | None, Some _ => copy_location m (Some elem) (Some data)
  | _, _ => Ok m
  end.
(* gc.cc sweep_scm 672-681: the object is freed *)
Definition sweep (m : mem) (o : nat) : res mem :=
  match m_loc m o with
  | Some l => do m <- free_str m (l_file l); Ok (put m o None)
  | None => Ok m
  end.
(* model only: what can happen to locations *)
Inductive act :=
| Set_ (o : nat) (file : option (list Z)) (line col : Z)
| Expand (expanded call : obj)
| Take (elem data : nat)
| Copy (dest src : nat)
| Sweep (o : nat).
(* model only *)
Definition perform (m : mem) (a : act) : res mem :=
  match a with
  | Set_ o f l c => set_location m (Some o) f l c
  | Expand e c => relocate m e c
  | Take e d => take_location m e d
  | Copy d s => copy_location m (Some d) (Some s)        (* pscm.h cdr 601-624, macro.cc 238, 242 *)
  | Sweep o => sweep m o
  end.
(* model only *)
Fixpoint perform_all (m : mem) (l : list act) : res mem :=
  match l with [] => Ok m | a :: r => do m <- perform m a; perform_all m r end.
(* model only: no locations *)
Definition empty : mem := mkM [] (fun _ => None).
