(** Specification of type expressions: the set of values an expression denotes,
    and the references in it. It uses the trees of [Rdt.v], nothing of the
    visitor. *)
From Coq Require Import ZArith List String Bool.
From Verif Require Import Base Scalars Spec_Scalars Heap Spec_Validate Rdt.
Import ListNotations.
Open Scope string_scope.
Open Scope list_scope.
Open Scope nat_scope.

(** The values of a built-in type without facets. *)
Definition prim_values (O : oracle) (p : prim) (v : gval) : Prop :=
  match p with
  | PAny => True
  | PNil => v = GNil
  | PString => exists s, v = GStr s
  | PBoolean => exists b, v = GBool b
  | PArray => exists l, v = GArr l
  | PObject => exists l, v = GMap l
  | PUnion => False
  | PInteger => int_accepts O (IntF None None None None None) v
  | PNumber => num_accepts (NumF None None None None None) v
  | PFile => file_accepts (FileF None None None) v
  | PDatetime => datetime_accepts O None v
  | PDatetimeOnly => layout_accepts O "2006-01-02T15:04:05" v
  | PDateOnly => layout_accepts O "2006-01-02" v
  | PTimeOnly => layout_accepts O "15:04:05" v
  end.

(** A reference as the user wrote it: [lib.name] or [name]. *)
Definition ref_name (s : string) (o : option string) : string :=
  match o with None => s | Some s' => (s ++ "." ++ s')%string end.

Section Denotation.
Variable O : oracle.
(** What the referenced types mean. *)
Variable R : string -> gval -> Prop.

Fixpoint denotes (e : expr) (v : gval) : Prop :=
  match e with
  | EType t => denotes_typ t v
  | EUnion t1 t2 ts => denotes_typ t1 v \/ denotes_typ t2 v \/ fold_right or False (map (fun t => denotes_typ t v) ts)
  end
with denotes_typ (t : typ) (v : gval) : Prop :=
  match t with
  | TAtom a => denotes_atom a v
  | TArray a => exists l, v = GArr l /\ forall x, In x l -> denotes_atom a x
  | TOptional a => denotes_atom a v \/ v = GNil
  end
with denotes_atom (a : atom) (v : gval) : Prop :=
  match a with
  | APrim p => prim_values O p v
  | AGroup e => denotes e v
  | ARef s o => R (ref_name s o) v
  end.
End Denotation.

(** The references of an expression. *)
Fixpoint refs (e : expr) : list string :=
  match e with
  | EType t => refs_typ t
  | EUnion t1 t2 ts => refs_typ t1 ++ refs_typ t2 ++ flat_map refs_typ ts
  end
with refs_typ (t : typ) : list string :=
  match t with TAtom a | TArray a | TOptional a => refs_atom a end
with refs_atom (a : atom) : list string :=
  match a with
  | APrim _ => []
  | AGroup e => refs e
  | ARef s o => [ref_name s o]
  end.

(** A type with nothing but a type expression: no link, alias, parents or facet
    definitions, not unwrapped. *)
Definition bare (h : list cell) (b : base) : Prop :=
  b_alias b = None /\ b_link b = None /\ b_unwrapped b = false
  /\ get_slice h (b_inherits b) = Some [] /\ get_props h (b_fdefs b) = Some [].

(** A referenced type that is resolved and unwrapped. A boolean must have no
    enum: an alias of it would lose the enum (C47). *)
Definition finished (h : list cell) (r : addr) : Prop :=
  exists b sh, get_base h r = Some b /\ b_shape b = Some sh /\ sh <> SUnknown
    /\ b_unwrapped b = true /\ forall e, sh = SBool e -> e = None.

(** * Which type has to be resolved before which *)

(** The reference an expression consists of, parentheses aside. *)
Fixpoint head_ref (e : expr) : option string :=
  match e with
  | EType (TAtom (ARef s o)) => Some (ref_name s o)
  | EType (TAtom (AGroup e')) => head_ref e'
  | _ => None
  end.

Section Needs.
Variable lookup : string -> string -> option addr.
Variable h : list cell.

Definition is_base (x : addr) : Prop := exists b, get_base h x = Some b.

(** The kind of [x] is that of [y]: [x] includes a data type fragment with root
    [y], or has the parent [y] among several, or is an alias of [y]. *)
Definition needs (x y : addr) : Prop :=
  exists b, get_base h x = Some b /\ b_shape b = Some SUnknown
    /\ match b_link b with
       | Some l => get_dt h l = Some (Some y)
       | None =>
           if String.eqb (b_type b) "composite"
           then exists ps, get_slice h (b_inherits b) = Some ps /\ In y ps
           else exists e nm, read_type (b_type b) = Some e /\ head_ref e = Some nm
                  /\ lookup nm (b_loc b) = Some y
       end.

(** The names of built-in types. *)
Definition builtin (t : string) : bool :=
  existsb (String.eqb t)
    ["string"; "integer"; "number"; "boolean"; "datetime"; "time-only"; "datetime-only"; "date-only"; "file";
     "nil"; "any"; "array"; "object"; "union"; "json"].

(** A type whose kind is known. *)
Definition settled (b : base) : bool :=
  match b_shape b with None | Some SUnknown => false | Some _ => builtin (b_type b) end.

(** A parsed model before resolution. *)
Record parsed : Prop := {
  p_lookup : forall nm loc y, lookup nm loc = Some y -> is_base y;
  p_link : forall x b l, get_base h x = Some b -> b_shape b = Some SUnknown -> b_link b = Some l ->
    exists y, get_dt h l = Some (Some y) /\ is_base y;
  p_parents : forall x b, get_base h x = Some b ->
    exists ps, get_slice h (b_inherits b) = Some ps
      /\ (forall y, b_shape b = Some SUnknown -> b_link b = None -> b_type b = "composite" -> In y ps -> is_base y)
      /\ (b_shape b = Some SUnknown -> b_link b = None -> b_type b = "composite" -> ps <> []);
  p_kind : forall x b sh, get_base h x = Some b -> b_shape b = Some sh -> sh <> SUnknown ->
    builtin (b_type b) = true;
  p_own : forall x y bx by_, get_base h x = Some bx -> get_base h y = Some by_ ->
    b_inherits bx = b_inherits by_ -> x = y
}.
End Needs.

(** Facets that are read or refused, without changing the kind. *)
Definition tame (fs : option (shape -> res shape)) : Prop :=
  forall f sh, fs = Some f -> f sh = Err \/ exists sh', f sh = Ok sh' /\ sh' <> SUnknown.

(** Every shape has an identifier of its own, below the counter. *)
Definition numbered (s : st) : Prop :=
  (forall x b, get_base (heap s) x = Some b -> (b_id b <= st_nextid s)%Z)
  /\ forall x y bx by_, get_base (heap s) x = Some bx -> get_base (heap s) y = Some by_ ->
       b_id bx = b_id by_ -> x = y.

(** * What a declaration becomes *)

(** A shape of a kind without any facet; unions have a slice of their own. *)
Definition blank (t : string) : option shape :=
  option_map snd (find (fun kv => String.eqb t (fst kv))
    [("any", SAny); ("nil", SNil); ("object", SObject (ObjF None None None None None None None));
     ("array", SArray (ArrF None None None None)); ("string", SStr (StrF None None None None));
     ("integer", SInt (IntF None None None None None)); ("number", SNum (NumF None None None None None));
     ("datetime", SDateTime None); ("datetime-only", SDateTimeOnly); ("date-only", SDateOnly);
     ("time-only", STimeOnly); ("file", SFile (FileF None None None)); ("boolean", SBool None)]).

(** A type that is resolved already. *)
Definition known (h : list cell) (r : addr) : Prop :=
  exists b sh, get_base h r = Some b /\ b_shape b = Some sh /\ sh <> SUnknown.

(** The kind of [x], not resolved yet, comes from [y]: the root of the data type
    it includes, the first of its parents, or the type its expression names. *)
Inductive origin := FromLink | FromFirst | FromName.
Definition kind_from (lookup : string -> string -> option addr) (h : list cell) (o : origin) (x y : addr) : Prop :=
  exists b, get_base h x = Some b /\ b_shape b = Some SUnknown
    /\ match o with
       | FromLink => exists l, b_link b = Some l /\ get_dt h l = Some (Some y)
       | FromFirst => b_link b = None /\ b_type b = "composite" /\ exists ps, get_slice h (b_inherits b) = Some (y :: ps)
       | FromName => b_link b = None /\ b_type b <> "composite"
           /\ exists e nm, read_type (b_type b) = Some e /\ head_ref e = Some nm /\ lookup nm (b_loc b) = Some y
       end.

(** [sh] is a shape of kind [t] with the facets [fs] read. *)
Definition faceted (fs : option (shape -> res shape)) (t : string) (sh : shape) : Prop :=
  forall sh0, blank t = Some sh0 ->
    match fs with None => sh = sh0 | Some f => f sh0 = Ok sh end.

(** What [a], whose kind comes from [y], is after resolution: a shape of that
    kind with the facets given; it has the parents it had, and [y] as a further
    parent if it names it beside facets; it is an alias of [y] if it names it
    and nothing else. *)
Definition became (s s' : st) (a y : addr) (o : origin) (fs : option (shape -> res shape)) (b : base) : Prop :=
  exists b' ty sh, get_base (heap s') a = Some b' /\ b_shape b' = Some sh
    /\ get_base (heap s) y = Some ty /\ b_type b' = b_type ty /\ faceted fs (b_type ty) sh
    /\ (forall l, get_slice (heap s) (b_inherits b) = Some l ->
          get_slice (heap s') (b_inherits b')
          = Some (match o, fs with FromName, Some _ => l ++ [y] | _, _ => l end))
    /\ b_alias b' = match o, fs with FromName, None => Some y | _, _ => b_alias b end.
