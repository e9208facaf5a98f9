(** Facets without effect on values (C85): small, independent definitions. *)
From Coq Require Import ZArith List String Bool.
From Verif Require Import Base Scalars Heap.
Import ListNotations.

(** A type without [multipleOf], without the [format] of a number, without
    [fileTypes], without the enum of a union and without the text of a JSON schema. *)
Definition lax_shape (sh : shape) : shape :=
  match sh with
  | SInt f => SInt (IntF (if_min f) (if_max f) None None (if_enum f))
  | SNum f => SNum (NumF (nf_min f) (nf_max f) None None (nf_enum f))
  | SFile f => SFile (FileF (ff_min f) (ff_max f) None)
  | SUnion l _ => SUnion l None
  | SJSON _ => SJSON ""
  | _ => sh
  end.
Definition lax (c : cell) : cell :=
  match c with
  | CBase b => CBase (set_shape (option_map lax_shape (b_shape b)) b)
  | _ => c
  end.
