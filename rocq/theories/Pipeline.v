(** Model of what happens to a whole RAML object after its shapes are resolved:
    annotation lookup, UnwrapShapes and ValidateShapes. No proofs here.
    Simplifications: hooks are absent; stack traces are reduced to whether
    there was an error; when UnwrapShapes fails the half-updated libraries and
    indexes are not returned (the shapes are). *)
From Coq Require Import ZArith List String Bool.
From Verif Require Import Base Scalars Heap Validate Names.
Import ListNotations.
Open Scope string_scope.
Open Scope list_scope.
Open Scope nat_scope.
Open Scope m_scope.

(** A Fragment: Library (/repo/fragment.go:46-60, kept in {!libs} because
    libraries link to each other), DataType (270-278; a nil [Shape] is [None])
    or NamedExample (405-411). *)
Inductive fragment : Type :=
| FLib (l : nat)
| FDT (uses : omap (option nat)) (shape : option addr)
| FNE.

(** DomainExtension, /repo/extension.go:9-18, without ID and positions. *)
Record ext := Ext {
  e_name : string;
  e_loc : string;
  e_value : gval;
  e_def : option addr
}.

(** [map[string]map[string]*BaseShape], /repo/raml.go:16-17. *)
Definition index := omap (omap addr).

(** The fields of RAML (/repo/raml.go:14-33) that are not in the heap state:
    fragmentsCache, domainExtensions, fragmentTypes, fragmentAnnotationTypes. *)
Record raml := Raml {
  r_libs : libs;
  r_frags : omap fragment;
  r_exts : list ext;
  r_types : index;
  r_annots : index
}.

(** * Annotations: resolution *)

(** GetReferencedAnnotationType, /repo/raml.go:223-233, with the lookups of
    {!Names}; NamedExample.GetReferenceAnnotationType (/repo/fragment.go:415-417)
    always fails. *)
Definition ref_annot (R : raml) (name loc : string) : res addr :=
  match oget loc (r_frags R) with
  | None => Err
  | Some (FLib l) =>
      match nth_error (r_libs R) l with
      | None => Panic
      | Some lib => lib_ref_annot (r_libs R) lib name
      end
  | Some (FDT uses _) => dt_reference l_annots (r_libs R) uses name
  | Some FNE => Err
  end.

(** resolveDomainExtensions with resolveDomainExtension,
    /repo/resolve.go:54-84: all are tried, the first component tells whether
    none failed. *)
Fixpoint resolve_exts (R : raml) (l : list ext) : res (bool * list ext) :=
  match l with
  | [] => Ok (true, [])
  | e :: l' =>
      match ref_annot R (e_name e) (e_loc e) with
      | Panic => Panic
      | OutOfFuel => OutOfFuel
      | r =>
          match resolve_exts R l' with
          | Ok (ok, l'') =>
              match r with
              | Ok a => Ok (ok, Ext (e_name e) (e_loc e) (e_value e) (Some a) :: l'')
              | _ => Ok (false, e :: l'')
              end
          | x => x
          end
      end
  end.

(** * ValidateShapes *)

(** [unwrapCache], /repo/validate.go:210. *)
Definition cache := list (Z * addr).

(** unwrapShape, /repo/validate.go:10-29. The clone keeps the ID of the
    original; it is read after unwrapping (25). *)
Definition val_unwrap (n : nat) (a : addr) (c : cache) : M (addr * cache) :=
  b <- rd get_base a ;;
  if b_unwrapped b then ret (a, c)
  else
    a' <- clone_detached n a ;;
    us <- unwrap n a' ;;
    mark n us ;;;
    b' <- rd get_base a' ;;
    ret (us, (b_id b', us) :: c).

(** Check and validateShapeCommons on the heap as it is,
    /repo/validate.go:51-70, 119-128. *)
Definition check_type (n : nat) (O : oracle) (a : addr) : M unit :=
  fun s =>
    match check n O (heap s) a with
    | Ok _ => (commons n O (heap s) a, s)
    | r => (r, s)
    end.

(** One round of validateTypes, /repo/validate.go:42-71, and validateDataType,
    97-130, which does the same: whether there was no error, and the cache. *)
Definition validate_type (n : nat) (O : oracle) (a : addr) (c : cache) : M (bool * cache) :=
  r <- try (val_unwrap n a c) ;;
  match r with
  | None => ret (false, c)
  | Some (us, c') =>
      k <- try (check_type n O us) ;;
      ret (match k with Some _ => true | None => false end, c')
  end.

(** validateTypes, /repo/validate.go:33-75. *)
Fixpoint validate_types (n : nat) (O : oracle) (l : omap addr) (c : cache) : M (bool * cache) :=
  match l with
  | [] => ret (true, c)
  | (_, a) :: l' =>
      r <- validate_type n O a c ;;
      r' <- validate_types n O l' (snd r) ;;
      ret (fst r && fst r', snd r')
  end.

(** validateLibrary, /repo/validate.go:79-95. *)
Definition validate_library (n : nat) (O : oracle) (lib : library) (c : cache) : M (bool * cache) :=
  r <- validate_types n O (l_annots lib) c ;;
  r' <- validate_types n O (l_types lib) (snd r) ;;
  ret (fst r && fst r', snd r').

(** One fragment, /repo/validate.go:140-158. *)
Definition validate_fragment (n : nat) (O : oracle) (L : libs) (f : fragment) (c : cache) : M (bool * cache) :=
  match f with
  | FLib l => match nth_error L l with None => mpanic | Some lib => validate_library n O lib c end
  | FDT _ None => mpanic
  | FDT _ (Some a) => validate_type n O a c
  | FNE => ret (true, c)
  end.

(** validateFragments, /repo/validate.go:134-160. [order]: the keys of
    fragmentsCache in the order the Go runtime enumerates them. *)
Fixpoint validate_fragments (n : nat) (O : oracle) (R : raml) (order : list string) (c : cache) : M (bool * cache) :=
  match order with
  | [] => ret (true, c)
  | k :: order' =>
      match oget k (r_frags R) with
      | None => validate_fragments n O R order' c
      | Some f =>
          r <- validate_fragment n O (r_libs R) f c ;;
          r' <- validate_fragments n O R order' (snd r) ;;
          ret (fst r && fst r', snd r')
      end
  end.

(** One round of validateDomainExtensions, /repo/validate.go:169-197; a nil
    [DefinedBy] is dereferenced at 171. *)
Definition validate_ext (n : nat) (O : oracle) (e : ext) (c : cache) : M unit :=
  match e_def e with
  | None => mpanic
  | Some db =>
      b <- rd get_base db ;;
      a <- (if b_unwrapped b then ret db
            else match cm_get (b_id b) c with None => fail | Some us => ret us end) ;;
      fun s => (validate n O (heap s) a (e_value e), s)
  end.

(** validateDomainExtensions, /repo/validate.go:164-200. *)
Fixpoint validate_exts (n : nat) (O : oracle) (l : list ext) (c : cache) : M bool :=
  match l with
  | [] => ret true
  | e :: l' =>
      k <- try (validate_ext n O e c) ;;
      ok <- validate_exts n O l' c ;;
      ret (match k with Some _ => ok | None => false end)
  end.

(** ValidateShapes, /repo/validate.go:204-226. *)
Definition validate_shapes (n : nat) (O : oracle) (order : list string) (R : raml) : M unit :=
  r <- validate_fragments n O R order [] ;;
  ok <- validate_exts n O (r_exts R) (snd r) ;;
  if fst r && ok then ret tt else fail.

(** * UnwrapShapes *)

(** PutTypeIntoFragment and PutAnnotationTypeIntoFragment,
    /repo/raml.go:171-178, 189-197. *)
Definition index_put (name loc : string) (a : addr) (i : index) : index :=
  oset loc (oset name a (match oget loc i with Some m => m | None => [] end)) i.

(** GetTypeFromFragmentPtr and GetAnnotationTypeFromFragmentPtr,
    /repo/raml.go:162-168, 180-186: an unknown name gives a nil pointer, not an
    error. *)
Definition index_get (loc name : string) (i : index) : res (option addr) :=
  match oget loc i with None => Err | Some m => Ok (oget name m) end.

(** unwrapTypes, /repo/unwrap.go:10-47: whether there was no error, the new
    map (42: [types.Set] on an existing key) and the new index. A declared type
    is never a nil pointer (/repo/fragment.go:166-213), so 18-27 is left
    out. *)
Fixpoint unwrap_types (n : nat) (loc : string) (l : omap addr) (i : index) : M (bool * omap addr * index) :=
  match l with
  | [] => ret (true, [], i)
  | (k, a) :: l' =>
      r <- try (unwrap n a) ;;
      match r with
      | None =>
          x <- unwrap_types n loc l' i ;;
          let '(_, l'', i') := x in ret (false, (k, a) :: l'', i')
      | Some us =>
          ub <- rd get_base us ;;
          x <- unwrap_types n loc l' (index_put (b_name ub) loc a i) ;;
          let '(ok, l'', i') := x in ret (ok, (k, us) :: l'', i')
      end
  end.

(** What unwrapFragments works on: the libraries, the fragments, the two
    indexes, and whether there was no error so far. *)
Record ust := Ust {
  u_ok : bool;
  u_libs : libs;
  u_frags : omap fragment;
  u_types : index;
  u_annots : index
}.

(** The assignment [f.Shape = us] of unwrapDataType, /repo/unwrap.go:72, as
    links see it: the data types whose shape was [a] now have [us]. A fragment
    and the links to it share one DataType in Go; here the fragment table holds
    the shape and the heap holds what links point to, and both are set. Every
    data type has a shape of its own when it has been parsed, so the only cell
    holding [a] is that of the fragment. *)
Definition relink (a us : addr) : M unit :=
  fun s => (Ok tt, St (map (fun c => match c with
                                     | CDT (Some x) => if Nat.eqb x a then CDT (Some us) else c
                                     | _ => c
                                     end) (heap s)) (st_shapes s) (st_nextid s)).

(** One fragment of unwrapFragments, /repo/unwrap.go:79-100, with
    unwrapLibrary (49-60) and unwrapDataType (62-75). *)
Definition unwrap_fragment (n : nat) (loc : string) (f : fragment) (u : ust) : M ust :=
  match f with
  | FLib l =>
      match nth_error (u_libs u) l with
      | None => mpanic
      | Some lib =>
          x <- unwrap_types n loc (l_annots lib) (u_annots u) ;;
          y <- unwrap_types n loc (l_types lib) (u_types u) ;;
          let '(ok, an, ia) := x in
          let '(ok', ty, it) := y in
          ret (Ust (u_ok u && ok && ok') (upd l (Lib ty an (l_uses lib)) (u_libs u)) (u_frags u) it ia)
      end
  | FDT _ None => ret (Ust false (u_libs u) (u_frags u) (u_types u) (u_annots u))
  | FDT uses (Some a) =>
      r <- try (unwrap n a) ;;
      match r with
      | None => ret (Ust false (u_libs u) (u_frags u) (u_types u) (u_annots u))
      | Some us =>
          relink a us ;;;
          ub <- rd get_base us ;;
          ret (Ust (u_ok u) (u_libs u) (oset loc (FDT uses (Some us)) (u_frags u))
                 (index_put (b_name ub) loc us (u_types u)) (u_annots u))
      end
  | FNE => ret u
  end.

(** unwrapFragments, /repo/unwrap.go:77-102. *)
Fixpoint unwrap_fragments (n : nat) (order : list string) (u : ust) : M ust :=
  match order with
  | [] => ret u
  | k :: order' =>
      match oget k (u_frags u) with
      | None => unwrap_fragments n order' u
      | Some f => u' <- unwrap_fragment n k f u ;; unwrap_fragments n order' u'
      end
  end.

(** The types markShapeRecursions visits in one fragment,
    /repo/unwrap.go:150-166; FindAndMarkRecursion dereferences a nil shape. *)
Definition mark_fragment (n : nat) (L : libs) (f : fragment) : M unit :=
  match f with
  | FLib l =>
      match nth_error L l with
      | None => mpanic
      | Some lib => mark_all n (map snd (l_annots lib)) ;;; mark_all n (map snd (l_types lib))
      end
  | FDT _ None => mpanic
  | FDT _ (Some a) => mark_all n [a]
  | FNE => ret tt
  end.

(** markShapeRecursions, /repo/unwrap.go:147-169. *)
Fixpoint mark_fragments (n : nat) (order : list string) (L : libs) (fs : omap fragment) : M unit :=
  match order with
  | [] => ret tt
  | k :: order' =>
      match oget k fs with
      | None => mark_fragments n order' L fs
      | Some f => mark_fragment n L f ;;; mark_fragments n order' L fs
      end
  end.

(** unwrapDomainExtensions, /repo/unwrap.go:104-122. *)
Fixpoint unwrap_exts (i : index) (l : list ext) : M (bool * list ext) :=
  match l with
  | [] => ret (true, [])
  | e :: l' =>
      match e_def e with
      | None => mpanic
      | Some db =>
          b <- rd get_base db ;;
          x <- unwrap_exts i l' ;;
          match index_get (b_loc b) (b_name b) i with
          | Ok p => ret (fst x, Ext (e_name e) (e_loc e) (e_value e) p :: snd x)
          | _ => ret (false, e :: snd x)
          end
      end
  end.

(** UnwrapShapes, /repo/unwrap.go:125-144. [o1] and [o2] are the orders in
    which the runtime enumerates the fragments in the two loops. *)
Definition unwrap_shapes (n : nat) (o1 o2 : list string) (R : raml) : M raml :=
  (fun s => (Ok tt, St (heap s) [] (st_nextid s))) ;;;
  u <- unwrap_fragments n o1 (Ust true (r_libs R) (r_frags R) [] []) ;;
  if negb (u_ok u) then fail
  else
    mark_fragments n o2 (u_libs u) (u_frags u) ;;;
    x <- unwrap_exts (u_annots u) (r_exts R) ;;
    if negb (fst x) then fail
    else ret (Raml (u_libs u) (u_frags u) (snd x) (u_types u) (u_annots u)).
