(** The operations of {!Heap}, {!Validate}, {!Pipeline}, {!Decode} and {!Parse}
    with the calls of hooks that those files leave out. No proofs here.
    Each definition is the one of the same name there (without the suffix) with
    the calls added; what does not reach a call is taken from there.
    Simplification: hooks look and may return an error, they change nothing. *)
From Coq Require Import ZArith List String Bool.
From Verif Require Import Base Scalars Heap Validate Names Rdt Resolve Yaml Pipeline Decode Parse.
Import ListNotations.
Open Scope string_scope.
Open Scope list_scope.
Open Scope nat_scope.

(** What hooks are called with: one case for each key, with the parameters of
    the call. *)
Inductive event :=
| BeforeParseDataType (path : string) (* /repo/parse.go:124 *)
| BeforeMakeNewShape (v : ynode) (* /repo/shape.go:730 *)
| BeforeMakeConcreteShape (a : addr) (t : string) (fs : option fnodes) (* /repo/shape.go:555 *)
| BeforeInherit (s src : addr) (* /repo/shape.go:127 *)
| BeforeInheritUnionSource (s members : addr) (* /repo/shape.go:185 *)
| BeforeInheritUnionTarget (s members : addr) (* /repo/shape.go:242 *)
| BeforeUnwrapShape (a : addr) (* /repo/unwrap.go:399 *)
| BeforeFindAndMarkRecursion (a : addr) (* /repo/unwrap.go:175 *)
| BeforeValidateShapes (* /repo/validate.go:205 *)
| BeforeValidateFragments (* /repo/validate.go:135 *)
| BeforeValidateLibrary (lib : library) (* /repo/validate.go:80 *)
| BeforeValidateDataType (shape : option addr) (* /repo/validate.go:98 *)
| BeforeValidateTypes (types : omap addr) (* /repo/validate.go:37 *)
| BeforeValidateDomainExtensions (* /repo/validate.go:165 *)
| BeforeValidateObjectShape (f : obj_facets) (* /repo/validate.go:231 *)
| BeforeValidateShapeCommons (a : addr) (* /repo/validate.go:258 *)
| BeforeValidateExamples (a : addr) (* /repo/validate.go:304 *)
| BeforeValidateShapeFacets (a : addr). (* /repo/validate.go:334 *)

(** What callHooks returns (/repo/raml.go:85-100), for every call in every
    state of the shapes: [true] when one of the hooks returns an error. *)
Definition hooks := event -> st -> bool.

Section Hooked.
Variable H : hooks.

(** [if err := r.callHooks(...); err != nil { return err }], e.g.
    /repo/unwrap.go:399-401. *)
Definition ask (e : event) : M unit := fun s => (if H e s then Err else Ok tt, s).

(** The same in the front end, e.g. /repo/shape.go:555-557. *)
Definition dask (e : event) : D unit := hp (ask e).

(** * Inheritance, /repo/shape.go:126-264 *)

Section Inherit.
Variable n : nat.
Variable rec : addr -> addr -> M addr.
Open Scope m_scope.

(** BaseShape.Inherit, /repo/shape.go:126-180, with the calls at 127, 185 and
    242. *)
Definition inherit_body_h (s src : addr) : M addr :=
  ask (BeforeInherit s src) ;;;
  sb <- rd get_base src ;;
  if b_visited sb then ret src else
  upd_base src (set_visited true) ;;;
  tb <- rd get_base s ;;
  (match b_desc tb with
   | None => upd_base s (set_desc (b_desc sb))
   | Some _ => ret tt
   end) ;;;
  tfm <- rd get_facets (b_facets tb) ;;
  sfm <- rd get_facets (b_facets sb) ;;
  write (b_facets tb) (CFacets (merge_facets tfm sfm)) ;;;
  match b_shape tb, b_shape sb with
  | _, Some SAny => ret s
  | Some (SUnion ta e), Some (SUnion sa e') =>
      inherit_shape n rec s src (SUnion ta e) (SUnion sa e') ;;;
      upd_base src (set_visited false) ;;;
      ret s
  | _, Some (SUnion sa _) =>
      ask (BeforeInheritUnionSource s sa) ;;;
      inherit_union_source n rec s sa
  | Some (SUnion ta _), Some _ =>
      ask (BeforeInheritUnionTarget s ta) ;;;
      good <- union_target rec n s ta 0%nat true ;;
      if good then ret s else fail
  | Some tsh, Some ssh =>
      inherit_shape n rec s src tsh ssh ;;;
      upd_base src (set_visited false) ;;;
      ret s
  | _, _ => mpanic
  end.
End Inherit.

(** BaseShape.Inherit, /repo/shape.go:126-180. *)
Fixpoint inherit_h (n : nat) (s src : addr) : M addr :=
  match n with
  | O => diverge
  | S n' => inherit_body_h n' (inherit_h n') s src
  end.

(** * Unwrapping and marking *)

Section Unwrap.
Open Scope m_scope.

(** UnwrapShape, /repo/unwrap.go:398-459. *)
Fixpoint unwrap_h (n : nat) (a : addr) : M addr :=
  match n with
  | O => diverge
  | S n' =>
      ask (BeforeUnwrapShape a) ;;;
      b <- rd get_base a ;;
      match b_shape b with
      | None => fail
      | Some _ =>
          if b_unwrapped b then ret a else
          upd_base a (set_unwrapped true) ;;;
          match b_alias b with
          | Some al =>
              us <- unwrap_h n' al ;;
              put_shape a ;;;
              alias_to a us
          | None =>
              src <- unwrap_parents n' (unwrap_h n') (inherit_h n') a ;;
              unwrap_target n' (unwrap_h n') a ;;;
              unwrap_fdefs n' (unwrap_h n') a ;;;
              a' <- match src with
                    | None => ret a
                    | Some s => inherit_h n' a s
                    end ;;
              put_shape a' ;;;
              ret a'
          end
      end
  end.

(** FindAndMarkRecursion, /repo/unwrap.go:174-213. *)
Fixpoint mark_h (n : nat) (a : addr) : M (option addr) :=
  match n with
  | O => diverge
  | S n' =>
      ask (BeforeFindAndMarkRecursion a) ;;;
      b <- rd get_base a ;;
      if negb (b_unwrapped b) then fail
      else if b_visited b then r <- make_recursive a ;; ret (Some r)
      else
        upd_base a (set_visited true) ;;;
        mark_shape n' (mark_h n') a ;;;
        upd_base a (set_visited false) ;;;
        b' <- rd get_base a ;;
        mark_map n' (mark_h n') (b_fdefs b') ;;;
        ret None
  end.

(** /repo/unwrap.go:147-169. *)
Fixpoint mark_all_h (n : nat) (l : list addr) : M unit :=
  match l with
  | [] => ret tt
  | a :: l' => mark_h n a ;;; mark_all_h n l'
  end.

(** markShapeRecursions, /repo/unwrap.go:150-166. *)
Definition mark_fragment_h (n : nat) (L : libs) (f : fragment) : M unit :=
  match f with
  | FLib l =>
      match nth_error L l with
      | None => mpanic
      | Some lib => mark_all_h n (map snd (l_annots lib)) ;;; mark_all_h n (map snd (l_types lib))
      end
  | FDT _ None => mpanic
  | FDT _ (Some a) => mark_all_h n [a]
  | FNE => ret tt
  end.

(** markShapeRecursions, /repo/unwrap.go:147-169. *)
Fixpoint mark_fragments_h (n : nat) (order : list string) (L : libs) (fs : omap fragment) : M unit :=
  match order with
  | [] => ret tt
  | k :: order' =>
      match oget k fs with
      | None => mark_fragments_h n order' L fs
      | Some f => mark_fragment_h n L f ;;; mark_fragments_h n order' L fs
      end
  end.

(** unwrapTypes, /repo/unwrap.go:10-47. *)
Fixpoint unwrap_types_h (n : nat) (loc : string) (l : omap addr) (i : index) : M (bool * omap addr * index) :=
  match l with
  | [] => ret (true, [], i)
  | (k, a) :: l' =>
      r <- try (unwrap_h n a) ;;
      match r with
      | None =>
          x <- unwrap_types_h n loc l' i ;;
          let '(_, l'', i') := x in ret (false, (k, a) :: l'', i')
      | Some us =>
          ub <- rd get_base us ;;
          x <- unwrap_types_h n loc l' (index_put (b_name ub) loc a i) ;;
          let '(ok, l'', i') := x in ret (ok, (k, us) :: l'', i')
      end
  end.

(** One fragment, /repo/unwrap.go:49-75, 79-100. *)
Definition unwrap_fragment_h (n : nat) (loc : string) (f : fragment) (u : ust) : M ust :=
  match f with
  | FLib l =>
      match nth_error (u_libs u) l with
      | None => mpanic
      | Some lib =>
          x <- unwrap_types_h n loc (l_annots lib) (u_annots u) ;;
          y <- unwrap_types_h n loc (l_types lib) (u_types u) ;;
          let '(ok, an, ia) := x in
          let '(ok', ty, it) := y in
          ret (Ust (u_ok u && ok && ok') (upd l (Lib ty an (l_uses lib)) (u_libs u)) (u_frags u) it ia)
      end
  | FDT _ None => ret (Ust false (u_libs u) (u_frags u) (u_types u) (u_annots u))
  | FDT uses (Some a) =>
      r <- try (unwrap_h n a) ;;
      match r with
      | None => ret (Ust false (u_libs u) (u_frags u) (u_types u) (u_annots u))
      | Some us =>
          relink a us ;;;
          ub <- rd get_base us ;;
          ret (Ust (u_ok u) (u_libs u) (oset loc (FDT uses (Some us)) (u_frags u))
                 (index_put (b_name ub) loc us (u_types u)) (u_annots u))
      end
  | FNE => ret u
  end.

(** unwrapFragments, /repo/unwrap.go:77-102. *)
Fixpoint unwrap_fragments_h (n : nat) (order : list string) (u : ust) : M ust :=
  match order with
  | [] => ret u
  | k :: order' =>
      match oget k (u_frags u) with
      | None => unwrap_fragments_h n order' u
      | Some f => u' <- unwrap_fragment_h n k f u ;; unwrap_fragments_h n order' u'
      end
  end.

(** UnwrapShapes, /repo/unwrap.go:125-144. *)
Definition unwrap_shapes_h (n : nat) (o1 o2 : list string) (R : raml) : M raml :=
  (fun s => (Ok tt, St (heap s) [] (st_nextid s))) ;;;
  u <- unwrap_fragments_h n o1 (Ust true (r_libs R) (r_frags R) [] []) ;;
  if negb (u_ok u) then fail
  else
    mark_fragments_h n o2 (u_libs u) (u_frags u) ;;;
    x <- unwrap_exts (u_annots u) (r_exts R) ;;
    if negb (fst x) then fail
    else ret (Raml (u_libs u) (u_frags u) (snd x) (u_types u) (u_annots u)).
End Unwrap.

(** * Validation *)

(** The same as {!ask} where the state is only read, e.g.
    /repo/validate.go:258-260. *)
Definition asked (e : event) (s : st) : res unit := if H e s then Err else Ok tt.

(** validateShapeCommons, /repo/validate.go:257-299, with the calls at 231, 258,
    304 and 334. *)
Fixpoint commons_h (n : nat) (O : oracle) (s : st) (a : addr) : res unit :=
  match n with
  | O%nat => OutOfFuel
  | S n' =>
      let h := heap s in
      rbind (asked (BeforeValidateShapeCommons a) s) (fun _ =>
      match get_base h a with
      | None => Panic
      | Some b =>
          rbind (asked (BeforeValidateShapeFacets a) s) (fun _ =>
          rbind (validate_facets n' (validate n' O h) h b) (fun _ =>
          rbind (asked (BeforeValidateExamples a) s) (fun _ =>
          rbind (validate_examples (validate n' O h a) b) (fun _ =>
          rbind (match b_shape b with
                 | Some (SObject f) =>
                     rbind (asked (BeforeValidateObjectShape f) s) (fun _ =>
                     match opt_props h (o_props f), opt_props h (o_pprops f) with
                     | Some ps, Some pps =>
                         rbind (check_all (commons_h n' O s) (bases ps)) (fun _ =>
                         check_all (commons_h n' O s) (bases pps))
                     | _, _ => Panic
                     end)
                 | Some (SArray f) =>
                     match a_items f with Some i => commons_h n' O s i | None => Ok tt end
                 | Some (SUnion sl _) =>
                     match get_slice h sl with
                     | Some l => check_all (commons_h n' O s) l
                     | None => Panic
                     end
                 | _ => Ok tt
                 end) (fun _ =>
          match get_props h (b_fdefs b) with
          | Some l => check_all (commons_h n' O s) (bases l)
          | None => Panic
          end)))))
      end)
  end.

Section Validate.
Open Scope m_scope.

(** unwrapShape, /repo/validate.go:10-29. *)
Definition val_unwrap_h (n : nat) (a : addr) (c : cache) : M (addr * cache) :=
  b <- rd get_base a ;;
  if b_unwrapped b then ret (a, c)
  else
    a' <- clone_detached n a ;;
    us <- unwrap_h n a' ;;
    mark_h n us ;;;
    b' <- rd get_base a' ;;
    ret (us, (b_id b', us) :: c).

(** /repo/validate.go:51-70, 119-128. *)
Definition check_type_h (n : nat) (O : oracle) (a : addr) : M unit :=
  fun s =>
    match check n O (heap s) a with
    | Ok _ => (commons_h n O s a, s)
    | r => (r, s)
    end.

(** One round of validateTypes, /repo/validate.go:42-71. *)
Definition validate_type_h (n : nat) (O : oracle) (a : addr) (c : cache) : M (bool * cache) :=
  r <- try (val_unwrap_h n a c) ;;
  match r with
  | None => ret (false, c)
  | Some (us, c') =>
      k <- try (check_type_h n O us) ;;
      ret (match k with Some _ => true | None => false end, c')
  end.

(** The loop of validateTypes, /repo/validate.go:41-73. *)
Fixpoint validate_each_h (n : nat) (O : oracle) (l : omap addr) (c : cache) : M (bool * cache) :=
  match l with
  | [] => ret (true, c)
  | (_, a) :: l' =>
      r <- validate_type_h n O a c ;;
      r' <- validate_each_h n O l' (snd r) ;;
      ret (fst r && fst r', snd r')
  end.

(** A function that reports the error of a hook as its own, to be collected by
    its caller, e.g. /repo/validate.go:37-39. *)
Definition asking (e : event) (c : cache) (m : M (bool * cache)) : M (bool * cache) :=
  k <- try (ask e) ;;
  match k with Some _ => m | None => ret (false, c) end.

(** validateTypes, /repo/validate.go:33-75. *)
Definition validate_types_h (n : nat) (O : oracle) (l : omap addr) (c : cache) : M (bool * cache) :=
  asking (BeforeValidateTypes l) c (validate_each_h n O l c).

(** validateLibrary, /repo/validate.go:79-95. *)
Definition validate_library_h (n : nat) (O : oracle) (lib : library) (c : cache) : M (bool * cache) :=
  asking (BeforeValidateLibrary lib) c (
    r <- validate_types_h n O (l_annots lib) c ;;
    r' <- validate_types_h n O (l_types lib) (snd r) ;;
    ret (fst r && fst r', snd r')).

(** One fragment, /repo/validate.go:140-158, with validateDataType, 97-130. *)
Definition validate_fragment_h (n : nat) (O : oracle) (L : libs) (f : fragment) (c : cache) : M (bool * cache) :=
  match f with
  | FLib l => match nth_error L l with None => mpanic | Some lib => validate_library_h n O lib c end
  | FDT _ sh =>
      asking (BeforeValidateDataType sh) c
        (match sh with None => mpanic | Some a => validate_type_h n O a c end)
  | FNE => ret (true, c)
  end.

(** The loop of validateFragments, /repo/validate.go:139-158. *)
Fixpoint fragments_each_h (n : nat) (O : oracle) (R : raml) (order : list string) (c : cache) : M (bool * cache) :=
  match order with
  | [] => ret (true, c)
  | k :: order' =>
      match oget k (r_frags R) with
      | None => fragments_each_h n O R order' c
      | Some f =>
          r <- validate_fragment_h n O (r_libs R) f c ;;
          r' <- fragments_each_h n O R order' (snd r) ;;
          ret (fst r && fst r', snd r')
      end
  end.

(** validateDomainExtensions, /repo/validate.go:164-200. *)
Definition validate_exts_h (n : nat) (O : oracle) (l : list ext) (c : cache) : M bool :=
  k <- try (ask BeforeValidateDomainExtensions) ;;
  match k with Some _ => validate_exts n O l c | None => ret false end.

(** ValidateShapes, /repo/validate.go:204-226. *)
Definition validate_shapes_h (n : nat) (O : oracle) (order : list string) (R : raml) : M unit :=
  ask BeforeValidateShapes ;;;
  r <- asking BeforeValidateFragments [] (fragments_each_h n O R order []) ;;
  ok <- validate_exts_h n O (r_exts R) (snd r) ;;
  if fst r && ok then ret tt else fail.
End Validate.

(** * Decoding *)

Section Decode.
Variable E : denv.
Open Scope d_scope.

Section Shape.
Variable inc_dt : string -> D addr.
Variable inc_ne : string -> D unit.
Variable rec : ynode -> string -> string -> D addr.

(** MakeConcreteShapeYAML, /repo/shape.go:554-606. *)
Definition concrete_h (a : addr) (loc t : string) (fs : option fnodes) : D unit :=
  dask (BeforeMakeConcreteShape a t fs) ;;;
  concrete E rec a loc t fs.

(** makeNewShapeYAML, /repo/shape.go:729-769. *)
Definition new_shape_h (v : ynode) (name loc : string) : D addr :=
  dask (BeforeMakeNewShape v) ;;;
  a <- hp (make_base name loc) ;;
  tf <- decode E inc_ne rec a loc v ;;
  ty <- match fst tf with
        | None => ty <- dlift (identify (snd tf)) ;; dret (Some ty)
        | Some t => shape_type E inc_dt rec a name loc t (snd tf)
        end ;;
  match ty with
  | None => dret a
  | Some ty =>
      concrete_h a loc ty (snd tf) ;;;
      b <- hp (rd get_base a) ;;
      match b_shape b with
      | Some SUnknown => put_todo a ;;; dret a
      | _ => dret a
      end
  end.
End Shape.

(** makeNewShapeYAML, /repo/shape.go:729-769. *)
Fixpoint shape_at_h (inc_dt : string -> D addr) (inc_ne : string -> D unit) (n : nat) (v : ynode) (name loc : string) : D addr :=
  match n with
  | O => dlift OutOfFuel
  | S n' => new_shape_h inc_dt inc_ne (shape_at_h inc_dt inc_ne n') v name loc
  end.

(** makeNewShapeYAML with enough fuel for the tree, /repo/shape.go:729-769. *)
Definition shape_yaml_h (inc_dt : string -> D addr) (inc_ne : string -> D unit) (v : ynode) (name loc : string) : D addr :=
  shape_at_h inc_dt inc_ne (ysize v) v name loc.

(** MakeConcreteShapeYAML during resolution, /repo/resolve.go:96, 107,
    /repo/rdt_visitor.go:167. *)
Definition concrete_yaml_h (inc_dt : string -> D addr) (inc_ne : string -> D unit) (a : addr) (t : string) (fs : option fnodes) : D unit :=
  b <- hp (rd get_base a) ;;
  concrete_h (fun v => shape_yaml_h inc_dt inc_ne v) a (b_loc b) t fs.

(** * Files *)

Section Fragments.
Variable inc_dt : string -> D addr.
Variable inc_ne : string -> D unit.
Variable inc_lib : string -> D nat.

(** /repo/fragment.go:177-186, 201-210. *)
Fixpoint declarations_h (loc : string) (put : string -> string -> addr -> D unit) (l : list ynode) (m : omap addr) : D (omap addr) :=
  match l with
  | [] => dret m
  | [_] => dlift Panic
  | k :: v :: l' =>
      x <- shape_yaml_h inc_dt inc_ne v (y_value k) loc ;;
      put (y_value k) loc x ;;;
      declarations_h loc put l' (oset (y_value k) x m)
  end.

(** /repo/fragment.go:166-213. *)
Definition declare_h (loc : string) (put : string -> string -> addr -> D unit) (v : ynode) (old : omap addr) : D (omap addr) :=
  if String.eqb (y_tag v) "!!null" then dret old
  else match y_kind v with
       | KMap => declarations_h loc put (y_content v) []
       | _ => dlift Err
       end.

(** The loop of Library.UnmarshalYAML, /repo/fragment.go:221-252. *)
Fixpoint lib_entries_h (loc : string) (l : list ynode) (b : plib) : D plib :=
  match l with
  | [] => dret b
  | [_] => dlift Panic
  | k :: v :: l' =>
      if String.eqb (y_value k) "uses" then
        m <- dlift (lib_uses v (pl_uses b)) ;;
        lib_entries_h loc l' (PLib m (pl_types b) (pl_annots b))
      else if String.eqb (y_value k) "types" then
        m <- declare_h loc put_type v (pl_types b) ;;
        lib_entries_h loc l' (PLib (pl_uses b) m (pl_annots b))
      else if String.eqb (y_value k) "annotationTypes" then
        m <- declare_h loc put_annot v (pl_annots b) ;;
        lib_entries_h loc l' (PLib (pl_uses b) (pl_types b) m)
      else if String.eqb (y_value k) "usage" then
        dlift (if d_string E v then Ok tt else Err) ;;; lib_entries_h loc l' b
      else if is_annotation (y_value k) then
        make_ext E loc (y_value k) v ;;; lib_entries_h loc l' b
      else lib_entries_h loc l' b
  end.

(** Library.UnmarshalYAML, /repo/fragment.go:216-255. *)
Definition unmarshal_lib_h (loc : string) (v : ynode) : D plib :=
  match y_kind v with
  | KMap => lib_entries_h loc (y_content v) (PLib [] [] [])
  | _ => dlift Err
  end.

(** decodeLibrary, /repo/parse.go:181-215. *)
Definition decode_lib_h (text path : string) : D nat :=
  o <- dlift (document E text) ;;
  match o with
  | None => dlift Panic
  | Some v =>
      b <- unmarshal_lib_h path v ;;
      l <- new_lib (Lib (pl_types b) (pl_annots b) (unlinked (pl_uses b))) ;;
      put_fragment path (FLib l) None ;;;
      ok <- link_uses E inc_lib path l (pl_uses b) ;;
      if ok then dret l else dlift Err
  end.

(** DataType.UnmarshalYAML, /repo/fragment.go:329-369. *)
Definition unmarshal_dt_h (loc : string) (v : ynode) : D (omap string * addr) :=
  match y_kind v with
  | KMap =>
      r <- dlift (dt_entries (y_content v) [] []) ;;
      x <- shape_yaml_h inc_dt inc_ne (Y KMap "" "" (snd r)) (d_base E loc) loc ;;
      dret (fst r, x)
  | _ => dlift Err
  end.

(** decodeDataType, /repo/parse.go:61-100. *)
Definition decode_dt_h (text path : string) : D addr :=
  o <- (if has_suffix ".json" path then dret (Some (json_document text)) else dlift (document E text)) ;;
  match o with
  | None => dlift Panic
  | Some v =>
      r <- unmarshal_dt_h path v ;;
      p <- dget ;;
      a <- hp (alloc (CDT (Some (snd r)))) ;;
      put_fragment path (FDT (unlinked (fst r)) (Some (snd r))) (Some a) ;;;
      link_dt_uses E inc_lib path (match oget path (p_frags p) with None => true | Some _ => false end) (fst r) ;;;
      dret a
  end.
End Fragments.

(** parseDataType, /repo/parse.go:123-162, and parseLibrary, 217-255. *)
Fixpoint parse_dt_h (n : nat) (path : string) : D addr :=
  match n with
  | O => dlift OutOfFuel
  | S n' =>
      dask (BeforeParseDataType path) ;;;
      p <- dget ;;
      match oget path (p_frags p) with
      | Some (FDT _ _) => match oget path (p_dts p) with Some a => dret a | None => dlift Panic end
      | Some _ => dlift Panic
      | None => text <- dlift (open_fragment E path KDataType) ;;
                decode_dt_h (parse_dt_h n') (parse_ne E) (parse_lib_h n') text path
      end
  end
with parse_lib_h (n : nat) (path : string) : D nat :=
  match n with
  | O => dlift OutOfFuel
  | S n' =>
      p <- dget ;;
      match oget path (p_frags p) with
      | Some (FLib l) => dret l
      | Some _ => dlift Panic
      | None => text <- dlift (open_fragment E path KLibrary) ;;
                decode_lib_h (parse_dt_h n') (parse_ne E) (parse_lib_h n') text path
      end
  end.

(** * Resolution *)

(** resolveShape, /repo/resolve.go:143-204. *)
Fixpoint settle_h (m n : nat) (a : addr) : D unit :=
  match n with
  | O => dlift OutOfFuel
  | S n' =>
      let conc := concrete_yaml_h (parse_dt_h m) (parse_ne E) in
      b <- hp (rd get_base a) ;;
      p <- dget ;;
      match b_shape b with
      | None => dlift Err
      | Some SUnknown =>
          let fs := facets_of a (p_facets p) in
          match b_link b with
          | Some l =>
              d <- hp (rd get_dt l) ;;
              match d with
              | None => dlift Panic
              | Some ds =>
                  settle_h m n' ds ;;;
                  db <- hp (rd get_base ds) ;;
                  conc a (b_type db) fs
              end
          | None =>
              if String.eqb (b_type b) "composite" then
                ps <- hp (rd get_slice (b_inherits b)) ;;
                settle_each (settle_h m n') ps ;;;
                match ps with
                | [] => dlift Panic
                | q :: _ => qb <- hp (rd get_base q) ;; conc a (b_type qb) fs
                end
              else
                match read_type (b_type b) with
                | None => dlift Err
                | Some e => see_expr conc (settle_h m n') e a fs
                end
          end
      | Some _ => dret tt
      end
  end.

(** resolveShapes, /repo/resolve.go:26-51. *)
Fixpoint settle_all_h (m n k : nat) (good : bool) : D bool :=
  match k with
  | O => dlift OutOfFuel
  | S k' =>
      p <- dget ;;
      match p_todo p with
      | [] => dret good
      | a :: _ =>
          r <- dtry (settle_h m n a) ;;
          drop_todo ;;;
          settle_all_h m n k' (match r with Some _ => good | None => false end)
      end
  end.

(** * parseFragment *)

(** /repo/parse.go:342-385. *)
Definition decode_fragment_h (n : nat) (text path : string) : D entry_point :=
  match read_head (Rd text 0) with
  | (Ok head, _) =>
      match identify_fragment head with
      | Ok KLibrary => l <- decode_lib_h (parse_dt_h n) (parse_ne E) (parse_lib_h n) text path ;; dret (ELib l)
      | Ok KDataType => a <- decode_dt_h (parse_dt_h n) (parse_ne E) (parse_lib_h n) text path ;; dret (EDT a)
      | Ok KNamedExample => decode_ne E text path ;;; dret ENE
      | _ => dlift Err
      end
  | _ => dlift Err
  end.

(** /repo/parse.go:387-396. *)
Definition resolve_fragment_h (n : nat) : D unit :=
  ok <- settle_all_h n n n true ;;
  (if ok then dret tt else dlift Err) ;;;
  fun p =>
    match resolve_exts (raml_of p) (p_exts p) with
    | Ok (good, l) =>
        ((if good then Ok tt else Err),
         PSt (p_st p) (p_libs p) (p_frags p) (p_dts p) l (p_types p) (p_annots p) (p_todo p) (p_facets p))
    | Err => (Err, p)
    | Panic => (Panic, p)
    | OutOfFuel => (OutOfFuel, p)
    end.

(** parseFragment, /repo/parse.go:342-411. *)
Definition parse_fragment_h (n : nat) (O : oracle) (o1 o2 o3 : list string) (do_unwrap do_validate : bool)
    (text path : string) : D entry_point :=
  ep <- decode_fragment_h n text path ;;
  resolve_fragment_h n ;;;
  (if do_unwrap then
     (fun p => match unwrap_shapes_h n o1 o2 (raml_of p) (p_st p) with
               | (Ok R, s) => (Ok tt, with_raml p s R)
               | (Err, s) => (Err, with_raml p s (raml_of p))
               | (Panic, s) => (Panic, with_raml p s (raml_of p))
               | (OutOfFuel, s) => (OutOfFuel, with_raml p s (raml_of p))
               end)
   else dret tt) ;;;
  (if do_validate then
     (fun p => match validate_shapes_h n O o3 (raml_of p) (p_st p) with
               | (r, s) => (r, with_raml p s (raml_of p))
               end)
   else dret tt) ;;;
  dret ep.

(** ParseFromString, /repo/parse.go:329-340, 438-456, with the hooks that the
    caller has put into the context (/repo/raml.go:41). *)
Definition parse_string_h (n : nat) (O : oracle) (o1 o2 o3 : list string) (do_unwrap do_validate : bool)
    (text path : string) : res entry_point * pst :=
  parse_fragment_h n O o1 o2 o3 do_unwrap do_validate text path new_raml.
End Decode.
End Hooked.
