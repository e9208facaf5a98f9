(** What the whole-model operations promise: the types a model declares, and
    what an annotation refers to. *)
From Coq Require Import ZArith List String Bool.
From Verif Require Import Base Scalars Heap Names Spec_Names Pipeline.
Import ListNotations.
Open Scope list_scope.
Open Scope nat_scope.

(** [a] is the type declared under [k] in library [lib]. *)
Definition has_type (lib : library) (k : string) (a : addr) : Prop := In (k, a) (l_types lib).
Definition has_annot (lib : library) (k : string) (a : addr) : Prop := In (k, a) (l_annots lib).

(** The types and annotation types of the libraries and the data types. *)
Inductive declares (R : raml) (a : addr) : Prop :=
| dc_type lib k : In lib (r_libs R) -> has_type lib k a -> declares R a
| dc_annot lib k : In lib (r_libs R) -> has_annot lib k a -> declares R a
| dc_data loc uses : In (loc, FDT uses (Some a)) (r_frags R) -> declares R a.

(** The types of the fragment at [loc]. *)
Inductive declared_in (R : raml) (loc : string) (a : addr) : Prop :=
| di_type l lib k : oget loc (r_frags R) = Some (FLib l) -> nth_error (r_libs R) l = Some lib -> has_type lib k a -> declared_in R loc a
| di_annot l lib k : oget loc (r_frags R) = Some (FLib l) -> nth_error (r_libs R) l = Some lib -> has_annot lib k a -> declared_in R loc a
| di_data uses : oget loc (r_frags R) = Some (FDT uses (Some a)) -> declared_in R loc a.

(** All declared types are there. *)
Definition declared_ok (h : list cell) (R : raml) : Prop :=
  forall a, declares R a -> exists b, get_base h a = Some b.

(** [us] is what becomes of a detached copy of [a] once it is unwrapped and
    its recursions are marked. *)
Definition unwrapped_copy (n : nat) (a : addr) (s : st) (us : addr) (s' : st) : Prop :=
  exists a1 s1 s2 o, clone_detached n a s = (Ok a1, s1) /\ unwrap n a1 s1 = (Ok us, s2) /\ mark n us s2 = (Ok o, s').

(** The annotation type called [name] in the fragment at [loc]. *)
Inductive refers (R : raml) (loc name : string) (a : addr) : Prop :=
| rf_lib l lib : oget loc (r_frags R) = Some (FLib l) -> nth_error (r_libs R) l = Some lib ->
    denotes l_annots (r_libs R) lib name a -> refers R loc name a
| rf_dt uses sh alias T la lib : oget loc (r_frags R) = Some (FDT uses sh) -> name = (alias ++ "." ++ T)%string -> no_dot T ->
    oget alias uses = Some (Some la) -> nth_error (r_libs R) la = Some lib -> oget T (l_annots lib) = Some a ->
    refers R loc name a.

(** An annotation as written and the same annotation once it is resolved. *)
Definition resolved (R : raml) (e e' : ext) : Prop :=
  e_name e' = e_name e /\ e_loc e' = e_loc e /\ e_value e' = e_value e
  /\ exists a, e_def e' = Some a /\ refers R (e_loc e) (e_name e) a.

(** Every entry of [l] is a type of the name it is declared under. *)
Definition named_as (s : st) (l : omap addr) : Prop :=
  forall k a, In (k, a) l -> exists b, get_base (heap s) a = Some b /\ b_name b = k.
