(** Specification of the part of the type graph an operation works in: a set of
    addresses that is closed under references, and what it means to stay
    inside. *)
From Coq Require Import List String.
From Verif Require Import Base Scalars Heap.
Import ListNotations.
Open Scope list_scope.
Open Scope nat_scope.

Section Region.
Variable R : addr -> Prop.

Definition opt_in (o : option addr) : Prop := forall a, o = Some a -> R a.

(** Everything a concrete shape refers to. *)
Definition shape_in (sh : shape) : Prop :=
  match sh with
  | SArray f => opt_in (a_items f)
  | SObject f => opt_in (o_props f) /\ opt_in (o_pprops f)
  | SUnion sl _ => R sl
  | SRec h => R h
  | _ => True
  end.

(** Everything a base shape refers to. *)
Definition base_in (b : base) : Prop :=
  R (b_inherits b) /\ R (b_facets b) /\ R (b_fdefs b) /\ opt_in (b_alias b) /\ opt_in (b_link b)
  /\ forall sh, b_shape b = Some sh -> shape_in sh.

Definition props_in (l : omap prop) : Prop := Forall (fun kp => R (p_base (snd kp))) l.

(** Everything a cell refers to. *)
Definition cell_in (c : cell) : Prop :=
  match c with
  | CBase b => base_in b
  | CProps l => props_in l
  | CFacets _ => True
  | CSlice l => Forall R l
  | CDT o => opt_in o
  end.

(** The cells of [R] refer to cells of [R] only. *)
Definition closed (h : list cell) : Prop := forall a c, R a -> nth_error h a = Some c -> cell_in c.

(** Nothing outside [R] changes. *)
Definition untouched (h h' : list cell) : Prop := forall a, ~ R a -> nth_error h' a = nth_error h a.
End Region.
