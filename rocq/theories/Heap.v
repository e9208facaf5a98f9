(** The shape graph as a heap and the operations on it: clone, alias,
    Inherit, UnwrapShape, FindAndMarkRecursion. No proofs here. *)
From Coq Require Import ZArith List String Bool.
From Coq Require Import Floats.SpecFloat.
From Verif Require Import Base Scalars.
Import ListNotations.
Open Scope string_scope.
Open Scope Z_scope.

(** A Go pointer to a base shape, an ordered map, a slice or a data type;
    addresses are indices into the heap, allocated by appending (nothing is
    ever freed by /repo). *)
Definition addr := nat.

(** /repo/complex.go:224-232; maps are pointers, nil is [None]. *)
Record obj_facets := ObjF {
  o_disc : option string;
  o_discval : option gval;
  o_addl : option bool;
  o_props : option addr;
  o_pprops : option addr;
  o_min : option Z;
  o_max : option Z
}.

(** /repo/complex.go:24-29. *)
Record arr_facets := ArrF {
  a_items : option addr;
  a_min : option Z;
  a_max : option Z;
  a_uniq : option bool
}.

(** The implementations of the interface Shape (/repo/shape.go:454-468).
    Simplification: a concrete shape is stored inside its base shape, i.e. each
    concrete shape belongs to exactly one base (the embedded [*BaseShape]
    pointer of e.g. /repo/complex.go:32-37). For JSONShape only [Raw] is kept
    (the decoded schema is a function of it, /repo/shape.go:542); the facet
    nodes of UnknownShape (/repo/complex.go:996) are dropped. *)
Inductive shape : Type :=
| SAny
| SNil
| SInt (f : int_facets)
| SNum (f : num_facets)
| SStr (f : str_facets)
| SFile (f : file_facets)
| SBool (e : enum)
| SDateTime (format : option string)
| SDateTimeOnly
| SDateOnly
| STimeOnly
| SArray (f : arr_facets)
| SObject (f : obj_facets)
| SUnion (anyof : addr) (e : enum)
| SJSON (raw : string)
| SUnknown
| SRec (head : addr).

(** Property and PatternProperty (/repo/complex.go:778-792). For a pattern
    property [p_name] is the source of the compiled pattern and [p_req] is
    false. *)
Record prop := Prop_ {
  p_name : string;
  p_base : addr;
  p_req : bool
}.

(** BaseShape (/repo/shape.go:43-78). TypeLabel, raml and positions are
    dropped. Slices ([Inherits]) are addresses; a nil slice is an empty one.
    The two custom-facet maps are never nil, as created by MakeBaseShape
    (/repo/shape.go:609-627). [b_example], [b_examples], [b_default] keep
    the data value of the (never mutated) nodes; [b_domain] the names and
    identities of the (never mutated) annotations. *)
Record base := Base {
  b_id : Z;
  b_name : string;
  b_loc : string;
  b_type : string;
  b_disp : option string;
  b_desc : option string;
  b_example : option gval;
  b_examples : option (list (string * gval));
  b_default : option gval;
  b_required : option bool;
  b_domain : list (string * Z);
  b_inherits : addr;
  b_alias : option addr;
  b_link : option addr;
  b_facets : addr;
  b_fdefs : addr;
  b_unwrapped : bool;
  b_visited : bool;
  b_shape : option shape
}.

(** Heap objects: base shapes, [OrderedMap[string, Property]] (and pattern
    properties), [OrderedMap[string, *Node]], [[]*BaseShape], and the DataType
    a link points to (only its [Shape], /repo/fragment.go:258-280). *)
Inductive cell : Type :=
| CBase (b : base)
| CProps (m : omap prop)
| CFacets (m : omap gval)
| CSlice (l : list addr)
| CDT (s : option addr).

(** The part of RAML (/repo/raml.go:14-33) that shape operations touch. *)
Record st := St {
  heap : list cell;
  st_shapes : list addr;
  st_nextid : Z
}.

(** Assignments to single fields of a base shape. *)
(** [tc.ID = ...], /repo/shape.go:197. *)
Definition set_id (x : Z) (b : base) : base :=
  Base x (b_name b) (b_loc b) (b_type b) (b_disp b) (b_desc b) (b_example b) (b_examples b)
    (b_default b) (b_required b) (b_domain b) (b_inherits b) (b_alias b) (b_link b)
    (b_facets b) (b_fdefs b) (b_unwrapped b) (b_visited b) (b_shape b).
(** [s.Type = TypeUnion], /repo/shape.go:229. *)
Definition set_type (x : string) (b : base) : base :=
  Base (b_id b) (b_name b) (b_loc b) x (b_disp b) (b_desc b) (b_example b) (b_examples b)
    (b_default b) (b_required b) (b_domain b) (b_inherits b) (b_alias b) (b_link b)
    (b_facets b) (b_fdefs b) (b_unwrapped b) (b_visited b) (b_shape b).
(** [s.Description = ...], /repo/shape.go:142. *)
Definition set_desc (x : option string) (b : base) : base :=
  Base (b_id b) (b_name b) (b_loc b) (b_type b) (b_disp b) x (b_example b) (b_examples b)
    (b_default b) (b_required b) (b_domain b) (b_inherits b) (b_alias b) (b_link b)
    (b_facets b) (b_fdefs b) (b_unwrapped b) (b_visited b) (b_shape b).
(** [base.Link = nil], /repo/unwrap.go:349. *)
Definition set_link (x : option addr) (b : base) : base :=
  Base (b_id b) (b_name b) (b_loc b) (b_type b) (b_disp b) (b_desc b) (b_example b) (b_examples b)
    (b_default b) (b_required b) (b_domain b) (b_inherits b) (b_alias b) x
    (b_facets b) (b_fdefs b) (b_unwrapped b) (b_visited b) (b_shape b).
(** [us.CustomShapeFacetDefinitions = ...], /repo/unwrap.go:441. *)
Definition set_fdefs (x : addr) (b : base) : base :=
  Base (b_id b) (b_name b) (b_loc b) (b_type b) (b_disp b) (b_desc b) (b_example b) (b_examples b)
    (b_default b) (b_required b) (b_domain b) (b_inherits b) (b_alias b) (b_link b)
    (b_facets b) x (b_unwrapped b) (b_visited b) (b_shape b).
(** SetUnwrapped, /repo/shape.go:388-390. *)
Definition set_unwrapped (x : bool) (b : base) : base :=
  Base (b_id b) (b_name b) (b_loc b) (b_type b) (b_disp b) (b_desc b) (b_example b) (b_examples b)
    (b_default b) (b_required b) (b_domain b) (b_inherits b) (b_alias b) (b_link b)
    (b_facets b) (b_fdefs b) x (b_visited b) (b_shape b).
(** [ShapeVisited = ...], /repo/shape.go:136,178. *)
Definition set_visited (x : bool) (b : base) : base :=
  Base (b_id b) (b_name b) (b_loc b) (b_type b) (b_disp b) (b_desc b) (b_example b) (b_examples b)
    (b_default b) (b_required b) (b_domain b) (b_inherits b) (b_alias b) (b_link b)
    (b_facets b) (b_fdefs b) (b_unwrapped b) x (b_shape b).
(** SetShape, /repo/shape.go:116-118, and assignments to facets of the
    concrete shape. *)
Definition set_shape (x : option shape) (b : base) : base :=
  Base (b_id b) (b_name b) (b_loc b) (b_type b) (b_disp b) (b_desc b) (b_example b) (b_examples b)
    (b_default b) (b_required b) (b_domain b) (b_inherits b) (b_alias b) (b_link b)
    (b_facets b) (b_fdefs b) (b_unwrapped b) (b_visited b) x.

(** Facet assignments [s.Items = ...] (/repo/complex.go:132). *)
Definition set_items (x : option addr) (f : arr_facets) : arr_facets :=
  ArrF x (a_min f) (a_max f) (a_uniq f).
(** [s.Properties = ...] (/repo/complex.go:536). *)
Definition set_props (x : option addr) (f : obj_facets) : obj_facets :=
  ObjF (o_disc f) (o_discval f) (o_addl f) x (o_pprops f) (o_min f) (o_max f).
(** [s.PatternProperties = ...] (/repo/complex.go:571). *)
Definition set_pprops (x : option addr) (f : obj_facets) : obj_facets :=
  ObjF (o_disc f) (o_discval f) (o_addl f) (o_props f) x (o_min f) (o_max f).
(** [prop.Base = ...] (/repo/unwrap.go:241). *)
Definition set_pbase (x : addr) (p : prop) : prop := Prop_ (p_name p) x (p_req p).

(** Computations: Go statements that read and write the heap. The state is
    kept on errors, because Go's writes persist. *)
Definition M (A : Type) := st -> res A * st.

(** [return a, nil], e.g. /repo/shape.go:179. *)
Definition ret {A} (a : A) : M A := fun s => (Ok a, s).
(** Sequencing with early return on error, e.g. /repo/unwrap.go:403-412. *)
Definition bind {A B} (m : M A) (f : A -> M B) : M B :=
  fun s => match m s with
           | (Ok a, s') => f a s'
           | (Err, s') => (Err, s')
           | (Panic, s') => (Panic, s')
           | (OutOfFuel, s') => (OutOfFuel, s')
           end.
(** [return nil, err], e.g. /repo/shape.go:175. *)
Definition fail {A} : M A := fun s => (Err, s).
(** Run-time panic, e.g. the nil dereference of /repo/shape.go:371. *)
Definition mpanic {A} : M A := fun s => (Panic, s).
(** Fuel exhausted: the Go call would still be running; the marker has no
    counterpart in /repo. *)
Definition diverge {A} : M A := fun s => (OutOfFuel, s).
(** [x, err := m; if err != nil {...}] where the error is handled and the
    loop goes on, e.g. /repo/shape.go:201-213. *)
Definition try {A} (m : M A) : M (option A) :=
  fun s => match m s with
           | (Ok a, s') => (Ok (Some a), s')
           | (Err, s') => (Ok None, s')
           | (Panic, s') => (Panic, s')
           | (OutOfFuel, s') => (OutOfFuel, s')
           end.

Declare Scope m_scope.
Delimit Scope m_scope with M.
Notation "x <- m ;; k" := (bind m (fun x => k))
  (at level 61, m at next level, right associativity) : m_scope.
Notation "m ;;; k" := (bind m (fun _ => k))
  (at level 61, right associativity) : m_scope.
Open Scope m_scope.

(** Pointer read and write, e.g. [base.Shape] (/repo/unwrap.go:402) and
    [base.Link = nil] (/repo/unwrap.go:349). *)
Fixpoint upd {A} (n : nat) (x : A) (l : list A) : list A :=
  match l, n with
  | [], _ => []
  | _ :: l', O => x :: l'
  | y :: l', S n' => y :: upd n' x l'
  end.

(** Address-typed reads of a heap; [None] means a dangling or ill-typed
    address, which Go's type system excludes except for nil. *)
(** e.g. /repo/unwrap.go:402. *)
Definition get_base (h : list cell) (a : addr) : option base :=
  match nth_error h a with Some (CBase b) => Some b | _ => None end.
(** e.g. /repo/unwrap.go:288. *)
Definition get_props (h : list cell) (a : addr) : option (omap prop) :=
  match nth_error h a with Some (CProps m) => Some m | _ => None end.
(** e.g. /repo/shape.go:149. *)
Definition get_facets (h : list cell) (a : addr) : option (omap gval) :=
  match nth_error h a with Some (CFacets m) => Some m | _ => None end.
(** e.g. /repo/unwrap.go:328. *)
Definition get_slice (h : list cell) (a : addr) : option (list addr) :=
  match nth_error h a with Some (CSlice l) => Some l | _ => None end.
(** e.g. /repo/unwrap.go:343. *)
Definition get_dt (h : list cell) (a : addr) : option (option addr) :=
  match nth_error h a with Some (CDT d) => Some d | _ => None end.

(** Lifting of the reads to computations (/repo/unwrap.go:402). *)
Definition rd {A} (get : list cell -> addr -> option A) (a : addr) : M A :=
  fun s => match get (heap s) a with Some x => (Ok x, s) | None => (Panic, s) end.

(** Write through a pointer (/repo/unwrap.go:349). *)
Definition write (a : addr) (c : cell) : M unit :=
  fun s => (Ok tt, St (upd a c (heap s)) (st_shapes s) (st_nextid s)).
(** Allocation, [&c] / [make] / [orderedmap.New] (/repo/shape.go:337-338). *)
Definition alloc (c : cell) : M addr :=
  fun s => (Ok (List.length (heap s)), St (heap s ++ [c])%list (st_shapes s) (st_nextid s)).
(** generateShapeID, /repo/shape.go:629-631. *)
Definition gen_id : M Z :=
  fun s => (Ok (st_nextid s + 1), St (heap s) (st_shapes s) (st_nextid s + 1)).
(** PutShape, /repo/raml.go:152-154. *)
Definition put_shape (a : addr) : M unit :=
  fun s => (Ok tt, St (heap s) (st_shapes s ++ [a])%list (st_nextid s)).
(** Assignment to fields of a base shape (/repo/unwrap.go:411). *)
Definition upd_base (a : addr) (f : base -> base) : M unit :=
  b <- rd get_base a ;; write a (CBase (f b)).

(** Loop over an ordered map that may be written, or grow, while it is being
    iterated: [for pair := m.Oldest(); pair != nil; pair = pair.Next()]
    (e.g. /repo/complex.go:542). Pairs are found by insertion index, since
    entries are never removed; [n] bounds the number of iterations. *)
Fixpoint loop_props (n : nat) (m : addr) (i : nat) (body : string -> prop -> M unit) : M unit :=
  match n with
  | O => diverge
  | S n' =>
      l <- rd get_props m ;;
      match nth_error l i with
      | None => ret tt
      | Some (k, p) => body k p ;;; loop_props n' m (S i) body
      end
  end.

(** Loop over a slice whose elements may be written meanwhile:
    [for i, item := range s] (e.g. /repo/unwrap.go:328). *)
Fixpoint loop_slice (n : nat) (sl : addr) (i : nat) (body : nat -> addr -> M unit) : M unit :=
  match n with
  | O => diverge
  | S n' =>
      l <- rd get_slice sl ;;
      match nth_error l i with
      | None => ret tt
      | Some a => body i a ;;; loop_slice n' sl (S i) body
      end
  end.

(** [m.Set(k, p)] through a pointer (/repo/complex.go:563). *)
Definition props_set (m : addr) (k : string) (p : prop) : M unit :=
  l <- rd get_props m ;; write m (CProps (oset k p l)).

(** * Clone *)

(** [clonedMap map[int64]*BaseShape] (/repo/shape.go:332). *)
Definition cmap := list (Z * addr).

(** Map lookup (/repo/shape.go:333). *)
Fixpoint cm_get (k : Z) (m : cmap) : option addr :=
  match m with
  | [] => None
  | (k', a) :: m' => if k =? k' then Some a else cm_get k m'
  end.

Section CloneParts.
Variable rec : cmap -> addr -> M (addr * cmap).

(** Cloning of slices (/repo/shape.go:361-364, /repo/complex.go:827-830). *)
Fixpoint clone_list (cm : cmap) (l : list addr) : M (list addr * cmap) :=
  match l with
  | [] => ret ([], cm)
  | a :: l' =>
      r <- rec cm a ;;
      r' <- clone_list (snd r) l' ;;
      ret (fst r :: fst r', snd r')
  end.

(** Cloning of property maps (/repo/shape.go:346-351,
    /repo/complex.go:359-364, 367-372). *)
Fixpoint clone_props (cm : cmap) (l : omap prop) : M (omap prop * cmap) :=
  match l with
  | [] => ret ([], cm)
  | (k, p) :: l' =>
      r <- rec cm (p_base p) ;;
      r' <- clone_props (snd r) l' ;;
      ret ((k, set_pbase (fst r) p) :: fst r', snd r')
  end.

(** [if x != nil { x = x.clone(clonedMap) }] (/repo/shape.go:359-361,
    /repo/complex.go:53-55). *)
Definition clone_opt (cm : cmap) (o : option addr) : M (option addr * cmap) :=
  match o with
  | None => ret (None, cm)
  | Some a => r <- rec cm a ;; ret (Some (fst r), snd r)
  end.

(** A nil-able property map (/repo/complex.go:358-373). *)
Definition clone_optprops (cm : cmap) (o : option addr) : M (option addr * cmap) :=
  match o with
  | None => ret (None, cm)
  | Some m =>
      l <- rd get_props m ;;
      r <- clone_props cm l ;;
      m' <- alloc (CProps (fst r)) ;;
      ret (Some m', snd r)
  end.

(** The clone methods of the concrete shapes: /repo/complex.go:50-57 (array),
    355-375 (object), 824-832 (union), 942-946 (JSON), 1009-1013 (unknown),
    1057-1061 (recursive: Head is shared), and the struct copies of
    /repo/scalars.go (e.g. 89-93). *)
Definition clone_shape (cm : cmap) (sh : shape) : M (shape * cmap) :=
  match sh with
  | SArray f =>
      r <- clone_opt cm (a_items f) ;;
      ret (SArray (set_items (fst r) f), snd r)
  | SObject f =>
      r <- clone_optprops cm (o_props f) ;;
      r' <- clone_optprops (snd r) (o_pprops f) ;;
      ret (SObject (set_pprops (fst r') (set_props (fst r) f)), snd r')
  | SUnion sl e =>
      l <- rd get_slice sl ;;
      r <- clone_list cm l ;;
      sl' <- alloc (CSlice (fst r)) ;;
      ret (SUnion sl' e, snd r)
  | _ => ret (sh, cm)
  end.
End CloneParts.

(** BaseShape.clone, /repo/shape.go:332-376. The containers of the copy are
    allocated after their contents are cloned; nothing reads the unfinished
    copy in between. [CustomDomainProperties] is copied by value. *)
Fixpoint clone (n : nat) (cm : cmap) (a : addr) : M (addr * cmap) :=
  match n with
  | O => diverge
  | S n' =>
      b <- rd get_base a ;;
      match cm_get (b_id b) cm with
      | Some a' => ret (a', cm)
      | None =>
          c <- alloc (CBase b) ;;
          let cm := (b_id b, c) :: cm in
          fm <- rd get_facets (b_facets b) ;;
          fd <- rd get_props (b_fdefs b) ;;
          rd_ <- clone_props (clone n') cm fd ;;
          ra <- clone_opt (clone n') (snd rd_) (b_alias b) ;;
          inh <- rd get_slice (b_inherits b) ;;
          ri <- clone_list (clone n') (snd ra) inh ;;
          rl <- match b_link b with
                | None => ret (None, snd ri)
                | Some l =>
                    d <- rd get_dt l ;;
                    match d with
                    | None => mpanic
                    | Some ds =>
                        r <- clone n' (snd ri) ds ;;
                        l' <- alloc (CDT (Some (fst r))) ;;
                        ret (Some l', snd r)
                    end
                end ;;
          match b_shape b with
          | None => mpanic
          | Some sh =>
              rs <- clone_shape (clone n') (snd rl) sh ;;
              fm' <- alloc (CFacets fm) ;;
              fd' <- alloc (CProps (fst rd_)) ;;
              inh' <- alloc (CSlice (fst ri)) ;;
              write c (CBase (Base (b_id b) (b_name b) (b_loc b) (b_type b) (b_disp b)
                (b_desc b) (b_example b) (b_examples b) (b_default b) (b_required b)
                (b_domain b) inh' (fst ra) (fst rl) fm' fd' (b_unwrapped b)
                (b_visited b) (Some (fst rs)))) ;;;
              ret (c, snd rs)
          end
      end
  end.

(** CloneDetached, /repo/shape.go:328-330. *)
Definition clone_detached (n : nat) (a : addr) : M addr :=
  r <- clone n [] a ;; ret (fst r).

(** * Alias *)

(** The alias methods: /repo/scalars.go:95-109, 320-334, 517-530, 689-701,
    838-847 (boolean: the enum is not copied), 944-954, 1049-1058, 1122-1131,
    1195-1204, 1268-1277, 1333-1342; /repo/complex.go:59-72, 377-393, 834-845,
    974-985, 1028-1030, 1063-1073. *)
Definition alias_shape (t s : shape) : res shape :=
  match t, s with
  | SAny, SAny => Ok SAny
  | SNil, SNil => Ok SNil
  | SInt _, SInt f => Ok (SInt f)
  | SNum _, SNum f => Ok (SNum f)
  | SStr _, SStr f => Ok (SStr f)
  | SFile _, SFile f => Ok (SFile f)
  | SBool e, SBool _ => Ok (SBool e)
  | SDateTime _, SDateTime f => Ok (SDateTime f)
  | SDateTimeOnly, SDateTimeOnly => Ok SDateTimeOnly
  | SDateOnly, SDateOnly => Ok SDateOnly
  | STimeOnly, STimeOnly => Ok STimeOnly
  | SArray _, SArray f => Ok (SArray f)
  | SObject _, SObject f => Ok (SObject f)
  | SUnion _ _, SUnion a e => Ok (SUnion a e)
  | SJSON _, SJSON r => Ok (SJSON r)
  | SRec _, SRec h => Ok (SRec h)
  | _, _ => Err
  end.

(** BaseShape.AliasTo, /repo/shape.go:266-284. *)
Definition alias_to (t s : addr) : M addr :=
  b <- rd get_base t ;;
  sb <- rd get_base s ;;
  match b_shape b, b_shape sb with
  | Some tsh, Some ssh =>
      match alias_shape tsh ssh with
      | Ok sh =>
          write t (CBase (Base (b_id b) (b_name b) (b_loc b) (b_type b) (b_disp sb) (b_desc sb)
            (b_example sb) (b_examples sb) (b_default sb) (b_required sb) (b_domain sb)
            (b_inherits sb) (b_alias sb) (b_link b) (b_facets sb) (b_fdefs sb)
            (b_unwrapped b) (b_visited b) (Some sh))) ;;;
          ret t
      | _ => fail
      end
  | _, _ => mpanic
  end.

(** * Inherit *)

(** The scalar cases of [target.inherit(source)] (/repo/scalars.go:156-202,
    374-420, 564-601, 722-755, 871-884, 983-997, 1073-1080, 1146-1153,
    1219-1226, 1284-1291, 1352-1359; JSON /repo/complex.go:957-972). [None]:
    not a pair of equal scalar kinds. *)
Definition inherit_scalar (t s : shape) : option (res shape) :=
  match t, s with
  | SAny, SAny => Some (Ok SAny)
  | SNil, SNil => Some (Ok SNil)
  | SInt a, SInt b => Some (rbind (int_inherit a b) (fun r => Ok (SInt r)))
  | SNum a, SNum b => Some (rbind (num_inherit a b) (fun r => Ok (SNum r)))
  | SStr a, SStr b => Some (rbind (str_inherit a b) (fun r => Ok (SStr r)))
  | SFile a, SFile b => Some (rbind (file_inherit a b) (fun r => Ok (SFile r)))
  | SBool a, SBool b => Some (rbind (bool_inherit a b) (fun r => Ok (SBool r)))
  | SDateTime a, SDateTime b => Some (rbind (datetime_inherit a b) (fun r => Ok (SDateTime r)))
  | SDateTimeOnly, SDateTimeOnly => Some (Ok SDateTimeOnly)
  | SDateOnly, SDateOnly => Some (Ok SDateOnly)
  | STimeOnly, STimeOnly => Some (Ok STimeOnly)
  | SJSON a, SJSON b =>
      Some (if negb (String.eqb a "") && negb (String.eqb b "") && negb (String.eqb a b)
            then Err else Ok (SJSON b))
  | _, _ => None
  end.

(** Result of a pure facet computation inside a heap computation: the
    [if err != nil { return nil, err }] after e.g. /repo/complex.go:612. *)
Definition lift {A} (r : res A) : M A := fun s => (r, s).

(** uniqueItems during inherit, /repo/complex.go:153-159. *)
Definition uniq_inherit (t s : option bool) : res (option bool) :=
  match t, s with
  | None, _ => Ok s
  | Some x, Some true => if x then Ok (Some x) else Err
  | Some x, _ => Ok (Some x)
  end.

Section InheritParts.
Variable n : nat.
Variable rec : addr -> addr -> M addr.

(** Facet update on the concrete shape of [a] (e.g. /repo/complex.go:141). When
    the concrete shape has meanwhile been replaced (/repo/shape.go:230), Go
    writes to the detached old object, which nothing reads afterwards. *)
Definition upd_arr (a : addr) (f : arr_facets -> arr_facets) : M unit :=
  b <- rd get_base a ;;
  match b_shape b with
  | Some (SArray x) => write a (CBase (set_shape (Some (SArray (f x))) b))
  | _ => ret tt
  end.
(** Same for objects (e.g. /repo/complex.go:536). *)
Definition upd_obj (a : addr) (f : obj_facets -> obj_facets) : M unit :=
  b <- rd get_base a ;;
  match b_shape b with
  | Some (SObject x) => write a (CBase (set_shape (Some (SObject (f x))) b))
  | _ => ret tt
  end.
(** Reading facets again after a nested call (e.g. /repo/complex.go:140); [old]
    when the concrete shape has been replaced meanwhile. *)
Definition cur_arr (a : addr) (old : arr_facets) : M arr_facets :=
  b <- rd get_base a ;;
  ret (match b_shape b with Some (SArray x) => x | _ => old end).
(** Same for objects (e.g. /repo/complex.go:570). *)
Definition cur_obj (a : addr) (old : obj_facets) : M obj_facets :=
  b <- rd get_base a ;;
  ret (match b_shape b with Some (SObject x) => x | _ => old end).

(** ArrayShape.inherit from an ArrayShape, /repo/complex.go:131-160; [src]
    is the base of the source. The facets after items are written at once
    at the end, so a failing call leaves fewer of them updated than in Go; the
    target of a failed call is discarded by all callers. *)
Definition inherit_array (t src : addr) (tf sf : arr_facets) : M unit :=
  match a_items tf, a_items sf with
  | None, i => upd_arr t (set_items i)
  | Some ti, Some si => rec ti si ;;; ret tt
  | Some _, None => ret tt
  end ;;;
  tf' <- cur_arr t tf ;;
  sf' <- cur_arr src sf ;;
  mn <- lift (min_inherit Z.ltb (a_min tf') (a_min sf')) ;;
  mx <- lift (max_inherit Z.ltb (a_max tf') (a_max sf')) ;;
  un <- lift (uniq_inherit (a_uniq tf') (a_uniq sf')) ;;
  upd_arr t (fun f => ArrF (a_items f) mn mx un).

(** The loops of inheritProperties (/repo/complex.go:542-565; [req] is the
    requiredness test) and inheritPatternProperties (/repo/complex.go:575-588;
    pattern properties are never required). *)
Definition inherit_map (tm sm : addr) : M unit :=
  loop_props n sm 0%nat (fun k sp =>
    tl <- rd get_props tm ;;
    match oget k tl with
    | Some tp =>
        if p_req sp && negb (p_req tp) then fail
        else rec (p_base tp) (p_base sp) ;;; ret tt
    | None => props_set tm k sp
    end).

(** inheritProperties, /repo/complex.go:534-567. *)
Definition inherit_props (t : addr) (tp sp : option addr) : M unit :=
  match tp, sp with
  | None, _ => upd_obj t (set_props sp)
  | Some _, None => ret tt
  | Some tm, Some sm => inherit_map tm sm
  end.

(** inheritPatternProperties, /repo/complex.go:569-591. *)
Definition inherit_pprops (t : addr) (tp sp : option addr) : M unit :=
  match tp, sp with
  | None, _ => upd_obj t (set_pprops sp)
  | Some _, None => ret tt
  | Some tm, Some sm => inherit_map tm sm
  end.

(** ObjectShape.inherit from an ObjectShape, /repo/complex.go:607-631; [src]
    is the base of the source. The bounds are computed before the first write:
    on a bound violation the Go code has already assigned AdditionalProperties
    and Discriminator of the (then discarded) target. *)
Definition inherit_object (t src : addr) (tf sf : obj_facets) : M unit :=
  mn <- lift (min_inherit Z.ltb (o_min tf) (o_min sf)) ;;
  mx <- lift (max_inherit Z.ltb (o_max tf) (o_max sf)) ;;
  upd_obj t (fun f => ObjF
    (match o_disc f with None => o_disc sf | d => d end) (o_discval f)
    (match o_addl f with None => o_addl sf | x => x end)
    (o_props f) (o_pprops f) mn mx) ;;;
  inherit_props t (o_props tf) (o_props sf) ;;;
  tf' <- cur_obj t tf ;;
  sf' <- cur_obj src sf ;;
  inherit_pprops t (o_pprops tf') (o_pprops sf').

(** UnionShape.inherit from a UnionShape, /repo/complex.go:881-912. *)
Fixpoint union_inner (sm : addr) (stype : string) (tl : list addr) : M (list addr) :=
  match tl with
  | [] => ret []
  | tm :: tl' =>
      tb <- rd get_base tm ;;
      r <- (if String.eqb stype (b_type tb) then
              cs <- clone_detached n tm ;;
              i <- gen_id ;;
              upd_base cs (set_id i) ;;;
              try (rec cs sm)
            else ret None) ;;
      r' <- union_inner sm stype tl' ;;
      ret (match r with Some ms => ms :: r' | None => r' end)
  end.

(** The outer loop, /repo/complex.go:887-910. Both slices are read once per
    pass: nothing writes their elements during Inherit except through a
    slice shared with a union being filtered, whose header is captured by
    [range] in the same way. *)
Fixpoint union_outer (tsl : addr) (sl : list addr) : M (list addr) :=
  match sl with
  | [] => ret []
  | sm :: sl' =>
      sb <- rd get_base sm ;;
      tl <- rd get_slice tsl ;;
      f <- union_inner sm (b_type sb) tl ;;
      match f with
      | [] => fail
      | _ => f' <- union_outer tsl sl' ;; ret (f ++ f')%list
      end
  end.

(** /repo/complex.go:873-912. *)
Definition inherit_union (t : addr) (tsl : addr) (e : enum) (ssl : addr) : M unit :=
  tl <- rd get_slice tsl ;;
  match tl with
  | [] => upd_base t (set_shape (Some (SUnion ssl e)))
  | _ =>
      sl <- rd get_slice ssl ;;
      f <- union_outer tsl sl ;;
      a <- alloc (CSlice f) ;;
      upd_base t (set_shape (Some (SUnion a e)))
  end.

(** [target.inherit(source)], dispatch on the concrete kinds; an object target
    looks through a recursive source (/repo/complex.go:595-597). All other
    combinations are errors (e.g. /repo/complex.go:124-130, 1024-1026,
    1083-1085). *)
Definition inherit_shape (t src : addr) (tsh ssh : shape) : M unit :=
  match tsh, ssh with
  | SArray tf, SArray sf => inherit_array t src tf sf
  | SObject tf, SObject sf => inherit_object t src tf sf
  | SObject tf, SRec h =>
      hb <- rd get_base h ;;
      match b_shape hb with
      | Some (SObject sf) => inherit_object t h tf sf
      | Some _ => fail
      | None => mpanic
      end
  | SUnion ta e, SUnion sa _ => inherit_union t ta e sa
  | _, _ =>
      match inherit_scalar tsh ssh with
      | Some r => sh <- lift r ;; upd_base t (set_shape (Some sh))
      | None => fail
      end
  end.

(** inheritUnionSource, /repo/shape.go:184-237; the result is the accumulated
    [filtered] slice, or [None] for the early [return s, nil] on an any
    member. *)
Fixpoint union_source (s : addr) (members : list addr) : M (option (list addr)) :=
  match members with
  | [] => ret (Some [])
  | m :: ms =>
      mb <- rd get_base m ;;
      match b_shape mb with
      | Some SAny => ret None
      | _ =>
          sb <- rd get_base s ;;
          r <- (if String.eqb (b_type mb) (b_type sb) then
                  tc <- clone_detached n s ;;
                  i <- gen_id ;;
                  upd_base tc (set_id i) ;;;
                  try (rec tc m)
                else ret None) ;;
          r' <- union_source s ms ;;
          ret (match r, r' with
               | Some x, Some l => Some (x :: l)
               | None, Some l => Some l
               | _, None => None
               end)
      end
  end.

(** /repo/shape.go:184-237, after the loop. *)
Definition inherit_union_source (s : addr) (ssl : addr) : M addr :=
  members <- rd get_slice ssl ;;
  r <- union_source s members ;;
  match r with
  | None => ret s
  | Some [] => fail
  | Some [x] => ret x
  | Some l =>
      a <- alloc (CSlice l) ;;
      upd_base s (fun b => set_shape (Some (SUnion a None)) (set_type "union" b)) ;;;
      ret s
  end.

(** inheritUnionTarget, /repo/shape.go:241-264: every member inherits from
    [s] (the union itself), errors are collected; the result tells whether
    there were none. *)
Fixpoint union_target (k : nat) (s : addr) (tsl : addr) (i : nat) (good : bool) : M bool :=
  match k with
  | O => diverge
  | S k' =>
      l <- rd get_slice tsl ;;
      match nth_error l i with
      | None => ret good
      | Some item =>
          r <- try (rec item s) ;;
          union_target k' s tsl (S i) (match r with Some _ => good | None => false end)
      end
  end.

(** Custom facets of the parent that the child does not give,
    /repo/shape.go:145-154. *)
Definition merge_facets (t s : omap gval) : omap gval :=
  fold_left (fun acc kv => match oget (fst kv) acc with
                           | Some _ => acc
                           | None => oset (fst kv) (snd kv) acc
                           end) s t.

(** BaseShape.Inherit, /repo/shape.go:126-180; hooks (127-129) are assumed not
    to be installed. *)
Definition inherit_body (s src : addr) : M addr :=
  sb <- rd get_base src ;;
  if b_visited sb then ret src else
  upd_base src (set_visited true) ;;;
  tb <- rd get_base s ;;
  (match b_desc tb with
   | None => upd_base s (set_desc (b_desc sb))
   | Some _ => ret tt
   end) ;;;
  tfm <- rd get_facets (b_facets tb) ;;
  sfm <- rd get_facets (b_facets sb) ;;
  write (b_facets tb) (CFacets (merge_facets tfm sfm)) ;;;
  match b_shape tb, b_shape sb with
  | _, Some SAny => ret s
  | Some (SUnion ta e), Some (SUnion sa e') =>
      inherit_shape s src (SUnion ta e) (SUnion sa e') ;;;
      upd_base src (set_visited false) ;;;
      ret s
  | _, Some (SUnion sa _) => inherit_union_source s sa
  | Some (SUnion ta _), Some _ =>
      good <- union_target n s ta 0%nat true ;;
      if good then ret s else fail
  | Some tsh, Some ssh =>
      inherit_shape s src tsh ssh ;;;
      upd_base src (set_visited false) ;;;
      ret s
  | _, _ => mpanic
  end.
End InheritParts.

(** BaseShape.Inherit, /repo/shape.go:126-180. *)
Fixpoint inherit (n : nat) (s src : addr) : M addr :=
  match n with
  | O => diverge
  | S n' => inherit_body n' (inherit n') s src
  end.

(** * Unwrap *)

Section UnwrapParts.
Variable n : nat.
Variable rec : addr -> M addr.

(** The property loops of unwrapObjShape, /repo/unwrap.go:288-298, 300-310. *)
Definition unwrap_map (m : addr) : M unit :=
  loop_props n m 0%nat (fun k p =>
    us <- rec (p_base p) ;;
    props_set m k (set_pbase us p)).

(** A nil-able property map. *)
Definition unwrap_optmap (o : option addr) : M unit :=
  match o with None => ret tt | Some m => unwrap_map m end.

(** [unionShape.AnyOf[i] = us] (/repo/unwrap.go:334), [inherits[i] = us]
    (/repo/unwrap.go:369), [t.AnyOf[i] = rs] (/repo/unwrap.go:280). *)
Definition slice_set (sl : addr) (i : nat) (x : addr) : M unit :=
  l <- rd get_slice sl ;;
  match nth_error l i with
  | None => mpanic
  | Some _ => write sl (CSlice (upd i x l))
  end.

(** UnwrapTarget, /repo/unwrap.go:376-392, with unwrapObjShape 286-313,
    unwrapArrayShape 315-325, unwrapUnionShape 327-337. The concrete shape is
    read from the base at this point (the Go code holds the pointer read at
    line 402). The fields Properties and PatternProperties are read when each
    loop starts. *)
Definition unwrap_target (a : addr) : M unit :=
  b <- rd get_base a ;;
  match b_shape b with
  | Some (SArray f) =>
      match a_items f with
      | None => ret tt
      | Some i => us <- rec i ;; upd_arr a (set_items (Some us))
      end
  | Some (SObject f) =>
      unwrap_optmap (o_props f) ;;;
      b' <- rd get_base a ;;
      match b_shape b' with
      | Some (SObject f') => unwrap_optmap (o_pprops f')
      | _ => ret tt
      end
  | Some (SUnion sl _) =>
      loop_slice n sl 0%nat (fun i item =>
        us <- rec item ;;
        b' <- rd get_base a ;;
        match b_shape b' with
        | Some (SUnion sl' _) => slice_set sl' i us
        | _ => ret tt
        end)
  | _ => ret tt
  end.

(** The loop over the second and later parents, /repo/unwrap.go:358-369;
    the inheritance is a parameter. *)
Fixpoint unwrap_more_parents (k : nat) (inh : addr -> addr -> M addr) (sl : addr) (ss : addr)
    (i : nat) : M unit :=
  match k with
  | O => diverge
  | S k' =>
      l <- rd get_slice sl ;;
      match nth_error l i with
      | None => ret tt
      | Some p =>
          us <- rec p ;;
          us' <- inh ss us ;;
          slice_set sl i us' ;;;
          unwrap_more_parents k' inh sl ss (S i)
      end
  end.

(** unwrapParents, /repo/unwrap.go:339-374. *)
Definition unwrap_parents (inh : addr -> addr -> M addr) (a : addr) : M (option addr) :=
  b <- rd get_base a ;;
  match b_link b with
  | Some l =>
      d <- rd get_dt l ;;
      match d with
      | None => mpanic
      | Some ds =>
          us <- rec ds ;;
          upd_base a (set_link None) ;;;
          ret (Some us)
      end
  | None =>
      inhs <- rd get_slice (b_inherits b) ;;
      match inhs with
      | [] => ret None
      | p0 :: _ =>
          ss <- rec p0 ;;
          slice_set (b_inherits b) 0%nat ss ;;;
          unwrap_more_parents n inh (b_inherits b) ss 1%nat ;;;
          ret (Some ss)
      end
  end.

(** The facet-definition loop, /repo/unwrap.go:432-445. *)
Definition unwrap_fdefs (a : addr) : M unit :=
  b <- rd get_base a ;;
  loop_props n (b_fdefs b) 0%nat (fun k p =>
    us <- rec (p_base p) ;;
    e <- alloc (CProps []) ;;
    upd_base us (set_fdefs e) ;;;
    b' <- rd get_base a ;;
    props_set (b_fdefs b') k (set_pbase us p)).
End UnwrapParts.

(** UnwrapShape, /repo/unwrap.go:398-459; hooks assumed absent. *)
Fixpoint unwrap (n : nat) (a : addr) : M addr :=
  match n with
  | O => diverge
  | S n' =>
      b <- rd get_base a ;;
      match b_shape b with
      | None => fail
      | Some _ =>
          if b_unwrapped b then ret a else
          upd_base a (set_unwrapped true) ;;;
          match b_alias b with
          | Some al =>
              us <- unwrap n' al ;;
              put_shape a ;;;
              alias_to a us
          | None =>
              src <- unwrap_parents n' (unwrap n') (inherit n') a ;;
              unwrap_target n' (unwrap n') a ;;;
              unwrap_fdefs n' (unwrap n') a ;;;
              a' <- match src with
                    | None => ret a
                    | Some s => inherit n' a s
                    end ;;
              put_shape a' ;;;
              ret a'
          end
      end
  end.

(** * Recursion marking *)

(** MakeBaseShape, /repo/shape.go:609-627. *)
Definition make_base (name loc : string) : M addr :=
  i <- gen_id ;;
  fm <- alloc (CFacets []) ;;
  fd <- alloc (CProps []) ;;
  ih <- alloc (CSlice []) ;;
  a <- alloc (CBase (Base i name loc "" None None None None None None [] ih None None
                       fm fd false false None)) ;;
  put_shape a ;;;
  ret a.

(** MakeRecursiveShape, /repo/shape.go:524-536, followed by
    [s.unwrapped = true] (/repo/unwrap.go:184). *)
Definition make_recursive (head : addr) : M addr :=
  hb <- rd get_base head ;;
  a <- make_base (b_name hb) (b_loc hb) ;;
  upd_base a (fun b =>
    Base (b_id b) (b_name hb) (b_loc b) "recursive" (b_disp b) (b_desc hb) (b_example b)
      (b_examples b) (b_default b) (b_required b) (b_domain hb) (b_inherits b) (b_alias b)
      (b_link b) (b_facets hb) (b_fdefs b) true (b_visited b) (Some (SRec head))) ;;;
  ret a.

Section MarkParts.
Variable n : nat.
Variable rec : addr -> M (option addr).

(** The map loops of findAndMarkRecursionInObjectShape (/repo/unwrap.go:245-268)
    and findAndMarkRecursionInCustomShapeFacetDefinitions (215-228). *)
Definition mark_map (m : addr) : M unit :=
  loop_props n m 0%nat (fun k p =>
    r <- rec (p_base p) ;;
    match r with
    | Some x => props_set m k (set_pbase x p)
    | None => ret tt
    end).

(** A nil-able property map (/repo/unwrap.go:244,257). *)
Definition mark_optmap (o : option addr) : M unit :=
  match o with None => ret tt | Some m => mark_map m end.

(** /repo/unwrap.go:189-196 with the helpers 230-284. *)
Definition mark_shape (a : addr) : M unit :=
  b <- rd get_base a ;;
  match b_shape b with
  | Some (SArray f) =>
      match a_items f with
      | None => ret tt
      | Some i =>
          r <- rec i ;;
          match r with
          | Some x => upd_arr a (set_items (Some x))
          | None => ret tt
          end
      end
  | Some (SObject f) => mark_optmap (o_props f) ;;; mark_optmap (o_pprops f)
  | Some (SUnion sl _) =>
      loop_slice n sl 0%nat (fun i item =>
        r <- rec item ;;
        match r with
        | Some x => slice_set sl i x
        | None => ret tt
        end)
  | _ => ret tt
  end.
End MarkParts.

(** FindAndMarkRecursion, /repo/unwrap.go:174-213 ([ErrNil] is the nil error,
    /repo/common.go:22); hooks assumed absent. *)
Fixpoint mark (n : nat) (a : addr) : M (option addr) :=
  match n with
  | O => diverge
  | S n' =>
      b <- rd get_base a ;;
      if negb (b_unwrapped b) then fail
      else if b_visited b then r <- make_recursive a ;; ret (Some r)
      else
        upd_base a (set_visited true) ;;;
        mark_shape n' (mark n') a ;;;
        upd_base a (set_visited false) ;;;
        b' <- rd get_base a ;;
        mark_map n' (mark n') (b_fdefs b') ;;;
        ret None
  end.

(** markShapeRecursions, /repo/unwrap.go:147-169. [l] lists the annotation types
    and types of all fragments in the order in which the Go map of fragments
    happens to be enumerated. The recursive shape that a call may return is
    dropped (154, 159, 164). *)
Fixpoint mark_all (n : nat) (l : list addr) : M unit :=
  match l with
  | [] => ret tt
  | a :: l' => mark n a ;;; mark_all n l'
  end.
