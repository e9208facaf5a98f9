(** Copying of JSON Schema documents in memory (schema.go): nodes, slices and
    maps are cells of a heap, so that sharing is visible. No proofs here.
    Simplifications: values of type [any] are immutable (DeepCopy copies the
    slices and maps that hold them, not the values, /repo/schema.go:107,112,429,441);
    the pointers *uint64 and *bool are values; a slice of length 0 has no spare
    capacity. *)
From Coq Require Import ZArith List String Bool.
From Verif Require Import Base Heap Schema.
Import ListNotations.
Open Scope list_scope.
Open Scope nat_scope.

(** JSONSchemaRAML with its embedded JSONSchemaGeneric, /repo/schema.go:30-84,
    385-390; a JSONSchema (356-358) is one with the last three nil. [d_kw] holds
    the fields without pointers; its enum, required and examples are not used.
    Pointers are [None] for nil. *)
Record dnode := DN {
  d_kw : kw;
  d_req : option addr; d_ex : option addr; d_enum : option addr;
  d_any : option addr; d_all : option addr; d_one : option addr;
  d_not : option addr; d_if : option addr; d_then : option addr; d_else : option addr;
  d_items : option addr; d_pnames : option addr;
  d_props : option addr; d_pprops : option addr; d_defs : option addr;
  d_ann : option addr; d_fdefs : option addr; d_fdata : option addr
}.

(** What is allocated: a node, []string, []any, []T, an ordered map or
    map[string]T, an ordered map of [any] (/repo/schema.go:30-84, 385-390). *)
Inductive dcell :=
| DNode (N : dnode)
| DStrs (l : list string)
| DVals (l : list gval)
| DSubs (l : list (option addr))
| DMap (l : list (string * option addr))
| DData (l : list (string * gval)).

(** A computation that may allocate; nothing in DeepCopy writes to a cell that
    can be reached from elsewhere. *)
Definition D (A : Type) := list dcell -> res (A * list dcell).
(** Returning a value. *)
Definition dret {A} (x : A) : D A := fun h => Ok (x, h).
(** Sequencing of Go statements. *)
Definition dbind {A B} (m : D A) (f : A -> D B) : D B :=
  fun h => match m h with
           | Ok (x, h') => f x h'
           | Err => Err
           | Panic => Panic
           | OutOfFuel => OutOfFuel
           end.
(** Allocation: [make], [orderedmap.New], [&T{}]. *)
Definition dalloc (c : dcell) : D (option addr) := fun h => Ok (Some (List.length h), h ++ [c]).
(** Dereference; [f] selects the kind of cell, which Go's type system fixes. *)
Definition dread {A} (f : dcell -> option A) (a : addr) : D A :=
  fun h => match nth_error h a with
           | Some c => match f c with Some x => Ok (x, h) | None => Panic end
           | None => Panic
           end.

Declare Scope d_scope.
Delimit Scope d_scope with D.
Notation "x <- m ;; k" := (dbind m (fun x => k)) (at level 61, m at next level, right associativity) : d_scope.
Local Open Scope d_scope.

(** The kinds of cells (Go types). *)
Definition as_node (c : dcell) := match c with DNode N => Some N | _ => None end.
(** See [as_node]; []string. *)
Definition as_strs (c : dcell) := match c with DStrs l => Some l | _ => None end.
(** See [as_node]; []any. *)
Definition as_vals (c : dcell) := match c with DVals l => Some l | _ => None end.
(** See [as_node]; []T. *)
Definition as_subs (c : dcell) := match c with DSubs l => Some l | _ => None end.
(** See [as_node]; maps of T. *)
Definition as_map (c : dcell) := match c with DMap l => Some l | _ => None end.
(** See [as_node]; ordered maps of [any]. *)
Definition as_data (c : dcell) := match c with DData l => Some l | _ => None end.

(** [if len(x) > 0 { y = make(...); copy(y, x) }], /repo/schema.go:101-114: an
    empty slice or map stays the one of the original (from ShallowCopy, 99). *)
Definition copy_flat {A} (f : dcell -> option (list A)) (mk : list A -> dcell) (p : option addr) : D (option addr) :=
  match p with
  | None => dret None
  | Some a => l <- dread f a ;; match l with [] => dret p | _ => dalloc (mk l) end
  end.

(** Loops that copy the elements in order. *)
Fixpoint dlist {A B} (f : A -> D B) (l : list A) : D (list B) :=
  match l with
  | [] => dret []
  | x :: l' => y <- f x ;; ys <- dlist f l' ;; dret (y :: ys)
  end.

Section Deep.
Variable rec : option addr -> D (option addr).

(** [if len(js.AnyOf) > 0 {...}], /repo/schema.go:116-135. *)
Definition copy_subs (p : option addr) : D (option addr) :=
  match p with
  | None => dret None
  | Some a => l <- dread as_subs a ;;
              match l with [] => dret p | _ => l' <- dlist rec l ;; dalloc (DSubs l') end
  end.
(** [if js.Properties.Len() > 0 {...}], /repo/schema.go:144-163. *)
Definition copy_map (p : option addr) : D (option addr) :=
  match p with
  | None => dret None
  | Some a => l <- dread as_map a ;;
              match l with
              | [] => dret p
              | _ => l' <- dlist (fun kp => q <- rec (snd kp) ;; dret (fst kp, q)) l ;; dalloc (DMap l')
              end
  end.
(** [if js.FacetDefinitions != nil {...}], /repo/schema.go:432-437. *)
Definition copy_map_any (p : option addr) : D (option addr) :=
  match p with
  | None => dret None
  | Some a => l <- dread as_map a ;;
              l' <- dlist (fun kp => q <- rec (snd kp) ;; dret (fst kp, q)) l ;; dalloc (DMap l')
  end.
(** [if js.Annotations != nil {...}], /repo/schema.go:426-431, 438-443. *)
Definition copy_data (p : option addr) : D (option addr) :=
  match p with None => dret None | Some a => l <- dread as_data a ;; dalloc (DData l) end.

(** JSONSchemaRAML.DeepCopy, /repo/schema.go:421-445, of a node that is not
    nil, with JSONSchemaGeneric.DeepCopy, 95-166. *)
Definition deep_node (N : dnode) : D (option addr) :=
  req <- copy_flat as_strs DStrs (d_req N) ;;
  ex <- copy_flat as_vals DVals (d_ex N) ;;
  en <- copy_flat as_vals DVals (d_enum N) ;;
  an <- copy_subs (d_any N) ;;
  al <- copy_subs (d_all N) ;;
  on <- copy_subs (d_one N) ;;
  nt <- rec (d_not N) ;;
  it <- rec (d_if N) ;;
  th <- rec (d_then N) ;;
  el <- rec (d_else N) ;;
  its <- rec (d_items N) ;;
  pn <- rec (d_pnames N) ;;
  ps <- copy_map (d_props N) ;;
  pps <- copy_map (d_pprops N) ;;
  df <- copy_map (d_defs N) ;;
  ann <- copy_data (d_ann N) ;;
  fd <- copy_map_any (d_fdefs N) ;;
  fx <- copy_data (d_fdata N) ;;
  dalloc (DNode (DN (d_kw N) req ex en an al on nt it th el its pn ps pps df ann fd fx)).
End Deep.

(** DeepCopy of a possibly nil pointer, /repo/schema.go:365-370, 421-445. *)
Fixpoint deep (n : nat) (p : option addr) : D (option addr) :=
  match p with
  | None => dret None
  | Some a =>
      match n with
      | O => fun _ => OutOfFuel
      | S n' => N <- dread as_node a ;; deep_node (deep n') N
      end
  end.

(** JSONSchemaRAML.ShallowCopy, /repo/schema.go:394-419. *)
Definition shallow (p : option addr) : D (option addr) :=
  match p with
  | None => dret None
  | Some a =>
      N <- dread as_node a ;;
      ann <- copy_data (d_ann N) ;;
      fd <- copy_map_any dret (d_fdefs N) ;;
      fx <- copy_data (d_fdata N) ;;
      dalloc (DNode (DN (d_kw N) (d_req N) (d_ex N) (d_enum N) (d_any N) (d_all N) (d_one N) (d_not N) (d_if N) (d_then N)
                       (d_else N) (d_items N) (d_pnames N) (d_props N) (d_pprops N) (d_defs N) ann fd fx))
  end.
