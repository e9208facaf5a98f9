(** What is wrong with a model that validation refuses. *)
From Coq Require Import ZArith List String Bool.
From Verif Require Import Base Scalars Heap Validate Names Pipeline Spec_Validate Spec_Pipeline.
Import ListNotations.
Open Scope list_scope.
Open Scope nat_scope.

(** Validation of [v] against the type [a] ends with an error. *)
Definition refused (O : oracle) (h : list cell) (a : addr) (v : gval) : Prop :=
  exists n, validate n O h a v = Err.

(** A sample of [b] (the shape at [d]) that the shape refuses. *)
Definition bad_sample (O : oracle) (h : list cell) (d : addr) (b : base) : Prop :=
  exists v, sample b v /\ refused O h d v.

(** What can be wrong with the custom facets of [b]: it defines a facet of an
    ancestor again, gives one that no ancestor defines, leaves out a required
    one, or gives one a value that its type refuses. *)
Inductive bad_facets (O : oracle) (h : list cell) (b : base) : Prop :=
| bf_again c d d' : ancestor h b c -> defines_facet h c d -> defines_facet h b d' -> p_name d = p_name d' ->
    bad_facets O h b
| bf_unknown k v : gives_facet h b k v -> (forall c d, ancestor h b c -> defines_facet h c d -> p_name d <> k) ->
    bad_facets O h b
| bf_missing c d : ancestor h b c -> defines_facet h c d -> p_req d = true -> (forall v, ~ gives_facet h b (p_name d) v) ->
    bad_facets O h b
| bf_value c d v : ancestor h b c -> defines_facet h c d -> gives_facet h b (p_name d) v -> refused O h (p_base d) v ->
    bad_facets O h b.

(** The heap of [s] is [h] with cells added. *)
Definition after_more (h : list cell) (s : st) : Prop := exists x, heap s = h ++ x.

(** A detached copy of [a] cannot be unwrapped. *)
Definition copy_fails (n : nat) (a : addr) (s : st) : Prop :=
  fst (clone_detached n a s) = Err
  \/ exists a1 s1, clone_detached n a s = (Ok a1, s1)
     /\ (fst (unwrap n a1 s1) = Err
         \/ exists us s2, unwrap n a1 s1 = (Ok us, s2) /\ fst (mark n us s2) = Err).

(** What can be wrong with a declared type [a] of the model [h]: its copy
    cannot be unwrapped, or the type (its copy, if it is not unwrapped) fails
    Check, or a part of it has a refused sample or wrong facets. *)
Definition bad_type (n : nat) (O : oracle) (h : list cell) (a : addr) : Prop :=
  exists b si, get_base h a = Some b /\ after_more h si
    /\ ((b_unwrapped b = false /\ copy_fails n a si)
        \/ exists us sj, ((b_unwrapped b = true /\ us = a /\ sj = si) \/ (b_unwrapped b = false /\ unwrapped_copy n a si us sj))
             /\ (check n O (heap sj) us = Err \/ commons n O (heap sj) us = Err)).

(** What can be wrong with an annotation: its type is not among those of the
    visited fragments and not unwrapped either, or refuses the value. *)
Definition bad_ext (n : nat) (O : oracle) (order : list string) (R : raml) (h h' : list cell) (e : ext) : Prop :=
  exists db b, e_def e = Some db /\ get_base h db = Some b
    /\ ((b_unwrapped b = true /\ validate n O h' db (e_value e) = Err)
        \/ (b_unwrapped b = false /\ forall loc, In loc order -> ~ declared_in R loc db)
        \/ (b_unwrapped b = false /\ exists us si sj, after_more h si /\ unwrapped_copy n db si us sj
              /\ (exists y, h' = heap sj ++ y) /\ validate n O h' us (e_value e) = Err)).
