(** What is said about loading files (C44-C46), in terms of the files. *)
From Coq Require Import ZArith List String Bool.
From Verif Require Import Base Heap Names Yaml Spec_Yaml Pipeline Decode Parse.
Import ListNotations.
Open Scope string_scope.
Open Scope list_scope.

(** [t] occurs somewhere in the tree [v]. *)
Inductive within (t : ynode) : ynode -> Prop :=
| within_here : within t t
| within_child : forall k tag value c x, In x c -> within t x -> within t (Y k tag value c).

(** The text [!include x] occurs in the tree. *)
Definition mentions (v : ynode) (x : string) : Prop :=
  exists t, within t v /\ y_kind t = KScalar /\ y_tag t = "!include" /\ y_value t = x.

(** The tree in a file. *)
Definition file_tree (E : denv) (path : string) (v : ynode) : Prop :=
  exists text tag value more, e_read (d_y E) path = Some text
    /\ e_yaml (d_y E) text = Some (Y KDoc tag value (v :: more)).

(** Finitely many files can be read. *)
Definition finite_files (E : denv) : Prop :=
  exists l, forall path, e_read (d_y E) path <> None -> In path l.

(** A file does not include itself, neither directly nor through other files;
    [uses] are not restricted. *)
Definition no_include_cycle (E : denv) : Prop :=
  exists rank : string -> nat, forall path v x,
    file_tree E path v -> mentions v x -> e_read (d_y E) (e_join (d_y E) path x) <> None ->
    rank (e_join (d_y E) path x) < rank path.

(** A run came to an end: it did not need more fuel. *)
Definition ended {A} (r : res A * pst) : Prop := fst r <> OutOfFuel.

(** * C44: one fragment per file *)

(** An entry of the [uses] that counts: the last that is not null, with the last
    value of the name. *)
Definition uses_entry (v : ynode) (name value : string) : Prop :=
  exists ps u us x, pairs_of (y_content v) ps
    /\ last_pair (filter (fun kv => negb (String.eqb (y_tag (snd kv)) "!!null")) ps) "uses" u
    /\ pairs_of (y_content u) us /\ last_pair us name x /\ y_value x = value.

(** Includes lead to a file of a lower rank and [uses] to one that is not
    higher: [uses] may run in circles, but no circle passes through an
    include. *)
Definition no_mixed_cycle (E : denv) : Prop :=
  exists rank : string -> nat, forall path v, file_tree E path v ->
    (forall x, mentions v x -> e_read (d_y E) (e_join (d_y E) path x) <> None ->
       rank (e_join (d_y E) path x) < rank path)
    /\ (forall name value, uses_entry v name value -> e_read (d_y E) (e_join (d_y E) path value) <> None ->
       rank (e_join (d_y E) path value) <= rank path).

(** The [uses] of a fragment. *)
Definition uses_of (p : pst) (f : fragment) : option (omap (option nat)) :=
  match f with
  | FLib l => match nth_error (p_libs p) l with Some lib => Some (l_uses lib) | None => None end
  | FDT uses _ => Some uses
  | FNE => None
  end.

(** A JSON file, whose text has no [uses]. *)
Definition json_type (path : string) (f : fragment) : Prop :=
  match f with FDT _ _ => has_suffix ".json" path = true | _ => False end.

(** Every entry of the [uses] in the file leads to the library that is loaded
    for the path, and there are no other entries. *)
Definition well_linked (E : denv) (p : pst) (path : string) : Prop :=
  forall f v U, oget path (p_frags p) = Some f -> ~ json_type path f -> file_tree E path v -> uses_of p f = Some U ->
    (forall name value, uses_entry v name value ->
       exists l, oget name U = Some (Some l) /\ oget (e_join (d_y E) path value) (p_frags p) = Some (FLib l))
    /\ (forall name, oget name U <> None -> exists value, uses_entry v name value).

(** There is exactly one Library object for each library in the cache. *)
Definition one_each (p : pst) : Prop :=
  (forall path l, oget path (p_frags p) = Some (FLib l) -> l < List.length (p_libs p))
  /\ (forall l, l < List.length (p_libs p) -> exists path, oget path (p_frags p) = Some (FLib l))
  /\ (forall path path' l, oget path (p_frags p) = Some (FLib l) -> oget path' (p_frags p) = Some (FLib l) -> path = path').

(** * Finding declarations by file and name *)

(** GetTypeFromFragmentPtr finds the types of every library that is loaded, and
    GetAnnotationTypeFromFragmentPtr its annotation types. *)
Definition finds_all (p : pst) : Prop :=
  forall path l lib, oget path (p_frags p) = Some (FLib l) -> nth_error (p_libs p) l = Some lib ->
    (forall name a, oget name (l_types lib) = Some a -> index_get path name (p_types p) = Ok (Some a))
    /\ (forall name a, oget name (l_annots lib) = Some a -> index_get path name (p_annots p) = Ok (Some a)).

(** They find nothing else. *)
Definition finds_only (p : pst) : Prop :=
  forall path name a,
    (index_get path name (p_types p) = Ok (Some a) ->
       exists l lib, oget path (p_frags p) = Some (FLib l) /\ nth_error (p_libs p) l = Some lib /\ oget name (l_types lib) = Some a)
    /\ (index_get path name (p_annots p) = Ok (Some a) ->
       exists l lib, oget path (p_frags p) = Some (FLib l) /\ nth_error (p_libs p) l = Some lib /\ oget name (l_annots lib) = Some a).

(** No file has a key twice at its top. *)
Definition single_keys (E : denv) : Prop :=
  forall path v ps, file_tree E path v -> pairs_of (y_content v) ps -> NoDup (map fst ps).
