(** Specification of the hooks of types (C78): to whom the hooks belong, and what
    was asked of each owner. *)
From Coq Require Import List String Bool Arith.
From Verif Require Import Base Hooks Spec_Hooks Shape_hooks.
Import ListNotations.
Open Scope list_scope.

(** Hooks belong to a RAML object that was there from the start, or to the object
    made for a type that had none. *)
Inductive owner := Given (r : nat) | Own (i : nat).
Definition owner_eqb (x y : owner) : bool :=
  match x, y with
  | Given r, Given r' => Nat.eqb r r'
  | Own i, Own i' => Nat.eqb i i'
  | _, _ => false
  end.

(** The owner for each type, and all calls so far with the owner they went to. *)
Record view := View { v_owners : list (option owner); v_calls : list (owner * hop) }.

Definition adds (o : hop) : bool := match o with Append _ _ | Prepend _ _ => true | _ => false end.
Fixpoint replace {A} (i : nat) (x : A) (l : list A) : list A :=
  match l, i with
  | [], _ => []
  | _ :: l', O => x :: l'
  | y :: l', S i' => y :: replace i' x l'
  end.

(** A type without an owner gets its own with the first hook; until then there
    is nothing to remove. A copy has the owner of the type it was made from. *)
Definition view_step (v : view) (e : event) : view :=
  match e with
  | OnObject r o => View (v_owners v) (v_calls v ++ [(Given r, o)])
  | OnType i o =>
      match nth_error (v_owners v) i with
      | Some (Some x) => View (v_owners v) (v_calls v ++ [(x, o)])
      | Some None => if adds o then View (replace i (Some (Own i)) (v_owners v)) (v_calls v ++ [(Own i, o)]) else v
      | None => v
      end
  | Copy i => match nth_error (v_owners v) i with Some q => View (v_owners v ++ [q]) (v_calls v) | None => v end
  end.
Definition view_of (ptrs : list (option nat)) (l : list event) : view :=
  fold_left view_step l (View (map (option_map Given) ptrs) []).

(** The hooks that count for a type: those its owner was asked for, by whatever
    way. *)
Definition asked_of (x : owner) (l : list (owner * hop)) : list hop :=
  map snd (filter (fun c => owner_eqb x (fst c)) l).
Definition hooks_for (key : string) (v : view) (i : nat) : list hook :=
  match nth_error (v_owners v) i with
  | Some (Some x) => registered key (asked_of x (v_calls v))
  | _ => []
  end.
