(** Model of parsing at the level of files: fragments, their cache, the
    resolution of what was parsed, and parseFragment. /repo/parse.go,
    /repo/fragment.go, /repo/resolve.go, /repo/rdt_visitor.go. No proofs here. *)
From Coq Require Import ZArith List String Bool.
From Verif Require Import Base Scalars Heap Rdt Resolve Names Yaml Pipeline Decode.
Import ListNotations.
Open Scope string_scope.
Open Scope list_scope.
Open Scope nat_scope.

(** [r.fragmentsCache] and the DataType objects, PutFragment,
    /repo/raml.go:205-209: the first one stays. *)
Definition put_fragment (path : string) (f : fragment) (dt : option addr) : D unit :=
  fun p =>
    match oget path (p_frags p) with
    | Some _ => (Ok tt, p)
    | None =>
        (Ok tt, PSt (p_st p) (p_libs p) (p_frags p ++ [(path, f)])
                  (match dt with Some x => p_dts p ++ [(path, x)] | None => p_dts p end)
                  (p_exts p) (p_types p) (p_annots p) (p_todo p) (p_facets p))
    end.

(** A new Library object, MakeLibrary, /repo/fragment.go:257-267 with the
    fields set by UnmarshalYAML: its address. *)
Definition new_lib (l : library) : D nat :=
  fun p => (Ok (List.length (p_libs p)),
            PSt (p_st p) (p_libs p ++ [l]) (p_frags p) (p_dts p) (p_exts p) (p_types p) (p_annots p) (p_todo p) (p_facets p)).

(** [include.Link = sublib] in a library, /repo/parse.go:209. *)
Definition link_lib (l : nat) (name : string) (x : option nat) : D unit :=
  fun p =>
    match nth_error (p_libs p) l with
    | None => (Panic, p)
    | Some lib =>
        (Ok tt, PSt (p_st p) (upd l (Lib (l_types lib) (l_annots lib) (oset name x (l_uses lib))) (p_libs p))
                  (p_frags p) (p_dts p) (p_exts p) (p_types p) (p_annots p) (p_todo p) (p_facets p))
    end.

(** [include.Link = sublib] in a data type, /repo/parse.go:96. When the cache
    holds another DataType for the path, that one is not touched. Simplification:
    the links are set in the cached fragment; the [uses] of a DataType that is
    not in the cache are never read. *)
Definition link_dt (path : string) (mine : bool) (name : string) (x : option nat) : D unit :=
  fun p =>
    if mine then
      match oget path (p_frags p) with
      | Some (FDT uses sh) =>
          (Ok tt, PSt (p_st p) (p_libs p) (oset path (FDT (oset name x uses) sh) (p_frags p))
                    (p_dts p) (p_exts p) (p_types p) (p_annots p) (p_todo p) (p_facets p))
      | _ => (Ok tt, p)
      end
    else (Ok tt, p).

(** The [uses] map as written, /repo/fragment.go:152-161, 347-358: names and
    paths; an odd number of nodes indexes out of range. *)
Fixpoint uses_map (l : list ynode) (m : omap string) : res (omap string) :=
  match l with
  | [] => Ok m
  | [_] => Panic
  | k :: v :: l' => uses_map l' (oset (y_value k) (y_value v) m)
  end.

(** No link is set yet, /repo/fragment.go:156. *)
Definition unlinked (m : omap string) : omap (option nat) := map (fun x => (fst x, None)) m.

(** A Library while it is unmarshalled. *)
Record plib := PLib { pl_uses : omap string; pl_types : omap addr; pl_annots : omap addr }.

(** [decoder.Decode(&x)] with [x] a pointer to a type with UnmarshalYAML
    (/repo/parse.go:80-83, 184-187, 261-264): yaml.v3 passes on the root node of
    the document, except that a null document makes the pointer nil ([None]). A
    document node has exactly one child. *)
Definition document (E : denv) (text : string) : res (option ynode) :=
  match e_yaml (d_y E) text with
  | Some (Y KDoc _ _ (Y k t v c :: _)) =>
      match k with
      | KScalar => if String.eqb t "!!null" then Ok None else Ok (Some (Y k t v c))
      | _ => Ok (Some (Y k t v c))
      end
  | _ => Err
  end.

Section Parse.
Variable E : denv.

(** The nodes MakeJSONDataType builds, /repo/fragment.go:383-398. *)
Definition json_document (text : string) : ynode :=
  Y KMap "" "" [Y KScalar "!!str" "type" []; Y KScalar "!!str" text []].

Section Fragments.
Variable inc_dt : string -> D addr.
Variable inc_ne : string -> D unit.
Variable inc_lib : string -> D nat.

(** The loops of unmarshalTypes and unmarshalAnnotationTypes,
    /repo/fragment.go:177-186, 201-210. *)
Fixpoint declarations (loc : string) (put : string -> string -> addr -> D unit) (l : list ynode) (m : omap addr) : D (omap addr) :=
  match l with
  | [] => dret m
  | [_] => dlift Panic
  | k :: v :: l' =>
      x <- shape_yaml E inc_dt inc_ne v (y_value k) loc ;;
      put (y_value k) loc x ;;;
      declarations loc put l' (oset (y_value k) x m)
  end.

(** unmarshalTypes and unmarshalAnnotationTypes, /repo/fragment.go:166-213;
    [old] is what the library has so far. *)
Definition declare (loc : string) (put : string -> string -> addr -> D unit) (v : ynode) (old : omap addr) : D (omap addr) :=
  if String.eqb (y_tag v) "!!null" then dret old
  else match y_kind v with
       | KMap => declarations loc put (y_content v) []
       | _ => dlift Err
       end.

(** unmarshalUses, /repo/fragment.go:143-164. *)
Definition lib_uses (v : ynode) (old : omap string) : res (omap string) :=
  if String.eqb (y_tag v) "!!null" then Ok old
  else match y_kind v with KMap => uses_map (y_content v) [] | _ => Err end.

(** The loop of Library.UnmarshalYAML, /repo/fragment.go:221-252. *)
Fixpoint lib_entries (loc : string) (l : list ynode) (b : plib) : D plib :=
  match l with
  | [] => dret b
  | [_] => dlift Panic
  | k :: v :: l' =>
      if String.eqb (y_value k) "uses" then
        m <- dlift (lib_uses v (pl_uses b)) ;;
        lib_entries loc l' (PLib m (pl_types b) (pl_annots b))
      else if String.eqb (y_value k) "types" then
        m <- declare loc put_type v (pl_types b) ;;
        lib_entries loc l' (PLib (pl_uses b) m (pl_annots b))
      else if String.eqb (y_value k) "annotationTypes" then
        m <- declare loc put_annot v (pl_annots b) ;;
        lib_entries loc l' (PLib (pl_uses b) (pl_types b) m)
      else if String.eqb (y_value k) "usage" then
        dlift (if d_string E v then Ok tt else Err) ;;; lib_entries loc l' b
      else if is_annotation (y_value k) then
        make_ext E loc (y_value k) v ;;; lib_entries loc l' b
      else lib_entries loc l' b
  end.

(** Library.UnmarshalYAML, /repo/fragment.go:216-255. *)
Definition unmarshal_lib (loc : string) (v : ynode) : D plib :=
  match y_kind v with
  | KMap => lib_entries loc (y_content v) (PLib [] [] [])
  | _ => dlift Err
  end.

(** The loop over [uses] in decodeLibrary, /repo/parse.go:196-210: whether no
    library failed. *)
Fixpoint link_uses (loc : string) (l : nat) (m : omap string) : D bool :=
  match m with
  | [] => dret true
  | (name, value) :: m' =>
      r <- dtry (inc_lib (e_join (d_y E) loc value)) ;;
      link_lib l name r ;;;
      ok <- link_uses loc l m' ;;
      dret (match r with Some _ => ok | None => false end)
  end.

(** decodeLibrary, /repo/parse.go:181-215. A nil library is dereferenced at
    195. *)
Definition decode_lib (text path : string) : D nat :=
  o <- dlift (document E text) ;;
  match o with
  | None => dlift Panic
  | Some v =>
      b <- unmarshal_lib path v ;;
      l <- new_lib (Lib (pl_types b) (pl_annots b) (unlinked (pl_uses b))) ;;
      put_fragment path (FLib l) None ;;;
      ok <- link_uses path l (pl_uses b) ;;
      if ok then dret l else dlift Err
  end.

(** The loop of DataType.UnmarshalYAML, /repo/fragment.go:337-361: the uses and
    the nodes of the shape. *)
Fixpoint dt_entries (l : list ynode) (uses : omap string) (rest : list ynode) : res (omap string * list ynode) :=
  match l with
  | [] => Ok (uses, rest)
  | [_] => Panic
  | k :: v :: l' =>
      if String.eqb (y_value k) "usage" then dt_entries l' uses rest
      else if String.eqb (y_value k) "uses" then
        if String.eqb (y_tag v) "!!null" then dt_entries l' uses rest
        else rbind (uses_map (y_content v) []) (fun m => dt_entries l' m rest)
      else dt_entries l' uses (rest ++ [k; v])
  end.

(** DataType.UnmarshalYAML, /repo/fragment.go:329-369. *)
Definition unmarshal_dt (loc : string) (v : ynode) : D (omap string * addr) :=
  match y_kind v with
  | KMap =>
      r <- dlift (dt_entries (y_content v) [] []) ;;
      x <- shape_yaml E inc_dt inc_ne (Y KMap "" "" (snd r)) (d_base E loc) loc ;;
      dret (fst r, x)
  | _ => dlift Err
  end.

(** The loop over [uses] in decodeDataType, /repo/parse.go:88-97: the first
    error ends it. *)
Fixpoint link_dt_uses (loc : string) (mine : bool) (m : omap string) : D unit :=
  match m with
  | [] => dret tt
  | (name, value) :: m' =>
      l <- inc_lib (e_join (d_y E) loc value) ;;
      link_dt loc mine name (Some l) ;;;
      link_dt_uses loc mine m'
  end.

(** decodeDataType, /repo/parse.go:61-100: the address of the DataType object,
    which is allocated only here. A nil data type is dereferenced at 87. *)
Definition decode_dt (text path : string) : D addr :=
  o <- (if has_suffix ".json" path then dret (Some (json_document text)) else dlift (document E text)) ;;
  match o with
  | None => dlift Panic
  | Some v =>
      r <- unmarshal_dt path v ;;
      p <- dget ;;
      a <- hp (alloc (CDT (Some (snd r)))) ;;
      put_fragment path (FDT (unlinked (fst r)) (Some (snd r))) (Some a) ;;;
      link_dt_uses path (match oget path (p_frags p) with None => true | Some _ => false end) (fst r) ;;;
      dret a
  end.

(** decodeNamedExample, /repo/parse.go:256-269, and
    NamedExample.UnmarshalYAML, /repo/fragment.go:435-452. *)
Definition decode_ne (text path : string) : D unit :=
  o <- dlift (document E text) ;;
  match o with
  | None => put_fragment path FNE None
  | Some v =>
      match y_kind v with
      | KMap => example_map E path (y_content v) [] ;;; put_fragment path FNE None
      | _ => dlift Err
      end
  end.
End Fragments.

(** Opening a fragment file and CheckFragmentKind, e.g. /repo/parse.go:138-154:
    the text of the file. *)
Definition open_fragment (path : string) (k : kind) : res string :=
  match e_read (d_y E) path with
  | None => Err
  | Some text =>
      match check_kind path (Rd text 0) k with
      | (Ok _, _) => Ok text
      | _ => Err
      end
  end.

(** parseNamedExample, /repo/parse.go:271-304; a cached fragment of another
    kind fails the type assertion (277). *)
Definition parse_ne (path : string) : D unit :=
  p <- dget ;;
  match oget path (p_frags p) with
  | Some FNE => dret tt
  | Some _ => dlift Panic
  | None => text <- dlift (open_fragment path KNamedExample) ;; decode_ne text path
  end.

(** parseDataType, /repo/parse.go:123-162, and parseLibrary, 217-255; the type
    assertions are at 135 and 228. [n] bounds the nesting of files. *)
Fixpoint parse_dt (n : nat) (path : string) : D addr :=
  match n with
  | O => dlift OutOfFuel
  | S n' =>
      p <- dget ;;
      match oget path (p_frags p) with
      | Some (FDT _ _) => match oget path (p_dts p) with Some a => dret a | None => dlift Panic end
      | Some _ => dlift Panic
      | None => text <- dlift (open_fragment path KDataType) ;;
                decode_dt (parse_dt n') parse_ne (parse_lib n') text path
      end
  end
with parse_lib (n : nat) (path : string) : D nat :=
  match n with
  | O => dlift OutOfFuel
  | S n' =>
      p <- dget ;;
      match oget path (p_frags p) with
      | Some (FLib l) => dret l
      | Some _ => dlift Panic
      | None => text <- dlift (open_fragment path KLibrary) ;;
                decode_lib (parse_dt n') parse_ne (parse_lib n') text path
      end
  end.

(** * Resolution *)

(** GetReferencedType, /repo/raml.go:211-221. *)
Definition ref_type (p : pst) (name loc : string) : res addr :=
  match oget loc (p_frags p) with
  | None => Err
  | Some (FLib l) =>
      match nth_error (p_libs p) l with
      | None => Panic
      | Some lib => lib_ref_type (p_libs p) lib name
      end
  | Some (FDT uses _) => dt_reference l_types (p_libs p) uses name
  | Some FNE => Err
  end.

Section Visit.
(** MakeConcreteShapeYAML with the facets of an unknown shape,
    /repo/shape.go:554. *)
Variable conc : addr -> string -> option fnodes -> D unit.
(** resolveShape, /repo/resolve.go:143. *)
Variable rec : addr -> D unit.

(** MakeNewShape, /repo/shape.go:711-724. *)
Definition fresh_shape (name t loc : string) : D addr :=
  a <- hp (make_base name loc) ;;
  conc a t None ;;;
  dret a.

(** VisitReference, /repo/rdt_visitor.go:160-184; TypeLabel is dropped. *)
Definition see_ref (name : string) (a : addr) (fs : option fnodes) : D unit :=
  b <- hp (rd get_base a) ;;
  p <- dget ;;
  r <- dlift (ref_type p name (b_loc b)) ;;
  rb <- hp (rd get_base r) ;;
  if Z.eqb (b_id rb) (b_id b) then dlift Err
  else
    rec r ;;;
    rb' <- hp (rd get_base r) ;;
    conc a (b_type rb') fs ;;;
    match fs with
    | None => hp (upd_base a (set_alias (Some r)))
    | Some _ =>
        hp (b' <- rd get_base a ;;
            l <- rd get_slice (b_inherits b') ;;
            Heap.write (b_inherits b') (CSlice (l ++ [r])))%M
    end.

(** The Visit methods, /repo/rdt_visitor.go:22-158, as in {!Resolve}. *)
Fixpoint see_expr (e : expr) (a : addr) (fs : option fnodes) {struct e} : D unit :=
  match e with
  | EType t => see_typ t a fs
  | EUnion t1 t2 ts =>
      conc a "union" fs ;;;
      b <- hp (rd get_base a) ;;
      x1 <- fresh_shape "" "" (b_loc b) ;;
      see_typ t1 x1 None ;;;
      x2 <- fresh_shape "" "" (b_loc b) ;;
      see_typ t2 x2 None ;;;
      xs <- (fix members (l : list typ) : D (list addr) :=
               match l with
               | [] => dret []
               | t :: l' =>
                   x <- fresh_shape "" "" (b_loc b) ;;
                   see_typ t x None ;;;
                   r <- members l' ;;
                   dret (x :: r)
               end) ts ;;
      sl <- hp (alloc (CSlice (x1 :: x2 :: xs))) ;;
      hp (set_members a sl)
  end
with see_typ (t : typ) (a : addr) (fs : option fnodes) {struct t} : D unit :=
  match t with
  | TAtom at_ => see_atom at_ a fs
  | TArray at_ =>
      conc a "array" fs ;;;
      b <- hp (rd get_base a) ;;
      i <- fresh_shape "" "" (b_loc b) ;;
      see_atom at_ i None ;;;
      hp (upd_arr a (set_items (Some i)))
  | TOptional at_ =>
      conc a "union" fs ;;;
      b <- hp (rd get_base a) ;;
      x <- fresh_shape "" "" (b_loc b) ;;
      see_atom at_ x None ;;;
      nl <- fresh_shape "" "nil" (b_loc b) ;;
      sl <- hp (alloc (CSlice [x; nl])) ;;
      hp (set_members a sl)
  end
with see_atom (at_ : atom) (a : addr) (fs : option fnodes) {struct at_} : D unit :=
  match at_ with
  | APrim t => conc a (prim_text t) None
  | AGroup e => see_expr e a fs
  | ARef s o => see_ref (ref_text s o) a fs
  end.

(** The loop of resolveMultipleInheritance, /repo/resolve.go:89-93. *)
Fixpoint settle_each (l : list addr) : D unit :=
  match l with
  | [] => dret tt
  | x :: l' => rec x ;;; settle_each l'
  end.
End Visit.

(** resolveShape, /repo/resolve.go:143-204, with resolveLink 102-112 and
    resolveMultipleInheritance 87-100. Facet nodes are unmarshalled here, which
    may parse further files: [m] bounds their nesting. *)
Fixpoint settle (m n : nat) (a : addr) : D unit :=
  match n with
  | O => dlift OutOfFuel
  | S n' =>
      let conc := concrete_yaml E (parse_dt m) parse_ne in
      b <- hp (rd get_base a) ;;
      p <- dget ;;
      match b_shape b with
      | None => dlift Err
      | Some SUnknown =>
          let fs := facets_of a (p_facets p) in
          match b_link b with
          | Some l =>
              d <- hp (rd get_dt l) ;;
              match d with
              | None => dlift Panic
              | Some ds =>
                  settle m n' ds ;;;
                  db <- hp (rd get_base ds) ;;
                  conc a (b_type db) fs
              end
          | None =>
              if String.eqb (b_type b) "composite" then
                ps <- hp (rd get_slice (b_inherits b)) ;;
                settle_each (settle m n') ps ;;;
                match ps with
                | [] => dlift Panic
                | q :: _ => qb <- hp (rd get_base q) ;; conc a (b_type qb) fs
                end
              else
                match read_type (b_type b) with
                | None => dlift Err
                | Some e => see_expr conc (settle m n') e a fs
                end
          end
      | Some _ => dret tt
      end
  end.

(** [r.unresolvedShapes.Remove(v)], /repo/resolve.go:44: [v] is the front. *)
Definition drop_todo : D unit :=
  fun p => (Ok tt, PSt (p_st p) (p_libs p) (p_frags p) (p_dts p) (p_exts p) (p_types p) (p_annots p) (tl (p_todo p)) (p_facets p)).

(** resolveShapes, /repo/resolve.go:26-51: shapes that resolution itself leaves
    unresolved go to the end of the list. [k] bounds the number of rounds. *)
Fixpoint settle_all (m n k : nat) (good : bool) : D bool :=
  match k with
  | O => dlift OutOfFuel
  | S k' =>
      p <- dget ;;
      match p_todo p with
      | [] => dret good
      | a :: _ =>
          r <- dtry (settle m n a) ;;
          drop_todo ;;;
          settle_all m n k' (match r with Some _ => good | None => false end)
      end
  end.

(** * parseFragment *)

(** A new RAML object, /repo/raml.go:136-144. *)
Definition new_raml : pst := PSt (St [] [] 0%Z) [] [] [] [] [] [] [] [].

(** The RAML object of {!Pipeline}. *)
Definition raml_of (p : pst) : raml := Raml (p_libs p) (p_frags p) (p_exts p) (p_types p) (p_annots p).

(** Its fields after a stage that works on it. *)
Definition with_raml (p : pst) (s : st) (R : raml) : pst :=
  PSt s (r_libs R) (r_frags R) (p_dts p) (r_exts R) (r_types R) (r_annots R) (p_todo p) (p_facets p).

(** The entry point that parseFragment sets, /repo/parse.go:357-380. *)
Inductive entry_point := ELib (l : nat) | EDT (a : addr) | ENE.

(** The first part of parseFragment, /repo/parse.go:342-385. *)
Definition decode_fragment (n : nat) (text path : string) : D entry_point :=
  match read_head (Rd text 0) with
  | (Ok head, _) =>
      match identify_fragment head with
      | Ok KLibrary => l <- decode_lib (parse_dt n) parse_ne (parse_lib n) text path ;; dret (ELib l)
      | Ok KDataType => a <- decode_dt (parse_dt n) parse_ne (parse_lib n) text path ;; dret (EDT a)
      | Ok KNamedExample => decode_ne text path ;;; dret ENE
      | _ => dlift Err
      end
  | _ => dlift Err
  end.

(** resolveShapes and resolveDomainExtensions as parseFragment calls them,
    /repo/parse.go:387-396. *)
Definition resolve_fragment (n : nat) : D unit :=
  ok <- settle_all n n n true ;;
  (if ok then dret tt else dlift Err) ;;;
  fun p =>
    match resolve_exts (raml_of p) (p_exts p) with
    | Ok (good, l) =>
        ((if good then Ok tt else Err),
         PSt (p_st p) (p_libs p) (p_frags p) (p_dts p) l (p_types p) (p_annots p) (p_todo p) (p_facets p))
    | Err => (Err, p)
    | Panic => (Panic, p)
    | OutOfFuel => (OutOfFuel, p)
    end.

(** parseFragment, /repo/parse.go:342-411. [o1], [o2], [o3]: the orders in which
    the Go runtime enumerates the fragments (see {!Pipeline}). *)
Definition parse_fragment (n : nat) (O : oracle) (o1 o2 o3 : list string) (do_unwrap do_validate : bool)
    (text path : string) : D entry_point :=
  ep <- decode_fragment n text path ;;
  resolve_fragment n ;;;
  (if do_unwrap then
     (fun p => match unwrap_shapes n o1 o2 (raml_of p) (p_st p) with
               | (Ok R, s) => (Ok tt, with_raml p s R)
               | (Err, s) => (Err, with_raml p s (raml_of p))
               | (Panic, s) => (Panic, with_raml p s (raml_of p))
               | (OutOfFuel, s) => (OutOfFuel, with_raml p s (raml_of p))
               end)
   else dret tt) ;;;
  (if do_validate then
     (fun p => match validate_shapes n O o3 (raml_of p) (p_st p) with
               | (r, s) => (r, with_raml p s (raml_of p))
               end)
   else dret tt) ;;;
  dret ep.

(** ParseFromString, /repo/parse.go:329-340, 438-456, on a new RAML object;
    [path] is the joined name. *)
Definition parse_string (n : nat) (O : oracle) (o1 o2 o3 : list string) (do_unwrap do_validate : bool)
    (text path : string) : res entry_point * pst :=
  parse_fragment n O o1 o2 o3 do_unwrap do_validate text path new_raml.
End Parse.
