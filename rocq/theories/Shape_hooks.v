(** Model of the hooks of types: the methods of BaseShape that add, remove and
    call hooks (/repo/shape.go:80-114), on top of the registry of Hooks.v. No
    proofs here. *)
From Coq Require Import List String Bool Arith.
From Verif Require Import Base Hooks.
Import ListNotations.
Open Scope string_scope.
Open Scope list_scope.
Open Scope nat_scope.

(** The registries of the RAML objects there are, and for each type the object
    its field [raml] points to, if any (/repo/shape.go:74). The rest of types and
    RAML objects has no part in this. *)
Record tstore := Ts { t_ramls : list hstate; t_ptrs : list (option nat) }.

(** A call of a method of a RAML object (/repo/raml.go:58-83). *)
Definition on_raml (spare : nat -> nat) (st : tstore) (r : nat) (o : hop) : tstore :=
  match nth_error (t_ramls st) r with
  | Some hs => Ts (set_nth r (do_op spare hs o) (t_ramls st)) (t_ptrs st)
  | None => st
  end.

(** [s.raml = New(...)], /repo/shape.go:89-91 and /repo/shape.go:103-105. *)
Definition own_raml (st : tstore) (i : nat) : nat * tstore :=
  (List.length (t_ramls st), Ts (t_ramls st ++ [hooks_init]) (set_nth i (Some (List.length (t_ramls st))) (t_ptrs st))).

(** AppendRAMLHook, /repo/shape.go:88-93. *)
Definition append_raml_hook (spare : nat -> nat) (st : tstore) (i : nat) (key : string) (h : hook) : tstore :=
  match nth_error (t_ptrs st) i with
  | Some (Some r) => on_raml spare st r (Append key h)
  | Some None => let '(r, st) := own_raml st i in on_raml spare st r (Append key h)
  | None => st
  end.

(** RemoveRAMLHook, /repo/shape.go:95-100. *)
Definition remove_raml_hook (spare : nat -> nat) (st : tstore) (i : nat) (key : string) (h : hook) : tstore :=
  match nth_error (t_ptrs st) i with
  | Some (Some r) => on_raml spare st r (Remove key h)
  | _ => st
  end.

(** PrepenRAMLHook, /repo/shape.go:102-107. *)
Definition prepend_raml_hook (spare : nat -> nat) (st : tstore) (i : nat) (key : string) (h : hook) : tstore :=
  match nth_error (t_ptrs st) i with
  | Some (Some r) => on_raml spare st r (Prepend key h)
  | Some None => let '(r, st) := own_raml st i in on_raml spare st r (Prepend key h)
  | None => st
  end.

(** ClearRAMLHooks, /repo/shape.go:109-114. *)
Definition clear_raml_hooks (spare : nat -> nat) (st : tstore) (i : nat) (key : string) : tstore :=
  match nth_error (t_ptrs st) i with
  | Some (Some r) => on_raml spare st r (Clear key)
  | _ => st
  end.

(** What a client does: a method of a type, a method of a RAML object, a copy of
    a type. All copies (/repo/shape.go:288, /repo/shape.go:337) start with the
    fields of the type. *)
Inductive event :=
| OnType (i : nat) (o : hop)
| OnObject (r : nat) (o : hop)
| Copy (i : nat).

(** Dispatch to the functions above. *)
Definition on_type (spare : nat -> nat) (st : tstore) (i : nat) (o : hop) : tstore :=
  match o with
  | Append k h => append_raml_hook spare st i k h
  | Prepend k h => prepend_raml_hook spare st i k h
  | Remove k h => remove_raml_hook spare st i k h
  | Clear k => clear_raml_hooks spare st i k
  end.
(** One event; [c := *s] of a copy, /repo/shape.go:337. *)
Definition do_event (spare : nat -> nat) (st : tstore) (e : event) : tstore :=
  match e with
  | OnType i o => on_type spare st i o
  | OnObject r o => on_raml spare st r o
  | Copy i => match nth_error (t_ptrs st) i with Some q => Ts (t_ramls st) (t_ptrs st ++ [q]) | None => st end
  end.
(** A history, from new RAML objects (/repo/raml.go:137-145) and types that
    point to some of them. *)
Definition history_of (spare : nat -> nat) (objects : nat) (ptrs : list (option nat)) (l : list event) : tstore :=
  fold_left (do_event spare) l (Ts (repeat hooks_init objects) ptrs).

(** callRAMLHooks, /repo/shape.go:80-86: the hooks called, each with the type as
    first parameter after the RAML object, and whether one returned an error. The
    hooks may call methods of the RAML object (Hooks.v). *)
Definition call_raml_hooks (spare : nat -> nat) (B : behaviour) (st : tstore) (i : nat) (key : string)
    : list (hook * nat) * bool :=
  match nth_error (t_ptrs st) i with
  | Some (Some r) =>
      match nth_error (t_ramls st) r with
      | Some hs => let '(t, e, _) := call_hooks spare B hs key in (map (fun h => (h, i)) t, e)
      | None => ([], false)
      end
  | _ => ([], false)
  end.
