(** Resolution of type expressions: the visitor over expression trees
    (/repo/rdt_visitor.go) and resolveShape / resolveShapes (/repo/resolve.go).
    No proofs here. *)
From Coq Require Import ZArith List String Bool.
From Verif Require Import Base Scalars Heap Rdt.
Import ListNotations.
Open Scope string_scope.
Open Scope list_scope.
Open Scope nat_scope.

(** What resolution reads besides the graph.
    - [rv_lookup name location]: GetReferencedType (/repo/raml.go:211-221, by
      GetReferenceType of /repo/fragment.go:63-93, 281-302, modelled in
      [Names.v]); the types of the fragments do not change during resolution.
    - [rv_facets a]: the facet nodes an UnknownShape keeps
      (/repo/complex.go:996-1022). [None] is the nil slice; [Some f] is a slice
      whose unmarshalling turns an empty concrete shape into [f shape] or fails.
      Simplification: [f] creates no further shapes, i.e. facets with nested
      declarations (properties, items) are not covered. *)
Record renv := REnv {
  rv_lookup : string -> string -> option addr;
  rv_facets : addr -> option (shape -> res shape)
}.

(** The switch of MakeConcreteShapeYAML, /repo/shape.go:563-597. A union starts
    with a nil slice of members; for JSON the missing schema is represented by
    an empty text. *)
Definition empty_shape (t : string) : M shape :=
  if String.eqb t "any" then ret SAny
  else if String.eqb t "nil" then ret SNil
  else if String.eqb t "object" then ret (SObject (ObjF None None None None None None None))
  else if String.eqb t "array" then ret (SArray (ArrF None None None None))
  else if String.eqb t "string" then ret (SStr (StrF None None None None))
  else if String.eqb t "integer" then ret (SInt (IntF None None None None None))
  else if String.eqb t "number" then ret (SNum (NumF None None None None None))
  else if String.eqb t "datetime" then ret (SDateTime None)
  else if String.eqb t "datetime-only" then ret SDateTimeOnly
  else if String.eqb t "date-only" then ret SDateOnly
  else if String.eqb t "time-only" then ret STimeOnly
  else if String.eqb t "file" then ret (SFile (FileF None None None))
  else if String.eqb t "boolean" then ret (SBool None)
  else if String.eqb t "union" then (sl <- alloc (CSlice []) ;; ret (SUnion sl None))%M
  else if String.eqb t "json" then ret (SJSON "")
  else ret SUnknown.

(** unmarshalYAMLNodes on the new shape, /repo/shape.go:600-603; unions, JSON
    and unknown shapes read no facet (/repo/complex.go:809, 953, 1019). *)
Definition unmarshal_facets (fs : option (shape -> res shape)) (sh : shape) : res shape :=
  match fs with
  | None => Ok sh
  | Some f => match sh with
              | SUnion _ _ | SJSON _ | SUnknown => Ok sh
              | _ => f sh
              end
  end.

(** MakeConcreteShapeYAML, /repo/shape.go:554-606; hooks assumed absent. *)
Definition make_concrete (a : addr) (t : string) (fs : option (shape -> res shape)) : M unit :=
  (upd_base a (set_type t) ;;;
   sh <- empty_shape t ;;
   upd_base a (set_shape (Some sh)) ;;;
   sh' <- lift (unmarshal_facets fs sh) ;;
   upd_base a (set_shape (Some sh')))%M.

(** MakeNewShape, /repo/shape.go:711-724. *)
Definition make_new (name t loc : string) : M addr :=
  (a <- make_base name loc ;;
   make_concrete a t None ;;;
   ret a)%M.

(** [s.Base().Alias = ref], /repo/rdt_visitor.go:179. *)
Definition set_alias (x : option addr) (b : base) : base :=
  Base (b_id b) (b_name b) (b_loc b) (b_type b) (b_disp b) (b_desc b) (b_example b) (b_examples b)
    (b_default b) (b_required b) (b_domain b) (b_inherits b) x (b_link b)
    (b_facets b) (b_fdefs b) (b_unwrapped b) (b_visited b) (b_shape b).

(** [unionShape.AnyOf = ...], /repo/rdt_visitor.go:108, 148. *)
Definition set_members (a : addr) (sl : addr) : M unit :=
  upd_base a (fun b => match b_shape b with
                       | Some (SUnion _ e) => set_shape (Some (SUnion sl e)) b
                       | _ => b
                       end).

(** The text of a reference (ctx.GetText() concatenates the tokens),
    /repo/rdt_visitor.go:161. *)
Definition ref_text (s : string) (o : option string) : string :=
  match o with None => s | Some s' => (s ++ "." ++ s')%string end.

Section Visit.
Variable E : renv.
Variable rec : addr -> M unit.

(** VisitReference, /repo/rdt_visitor.go:160-184; TypeLabel is dropped. *)
Definition visit_ref (name : string) (a : addr) (fs : option (shape -> res shape)) : M unit :=
  (b <- rd get_base a ;;
   match rv_lookup E name (b_loc b) with
   | None => fail
   | Some r =>
       rb <- rd get_base r ;;
       if Z.eqb (b_id rb) (b_id b) then fail
       else
         rec r ;;;
         rb' <- rd get_base r ;;
         make_concrete a (b_type rb') fs ;;;
         match fs with
         | None => upd_base a (set_alias (Some r))
         | Some _ =>
             b' <- rd get_base a ;;
             l <- rd get_slice (b_inherits b') ;;
             write (b_inherits b') (CSlice (l ++ [r]))
         end
   end)%M.

(** The Visit methods, /repo/rdt_visitor.go:22-158. The target is given by its
    base [a] and its facet nodes [fs]; the concrete shape that is returned is
    the one stored in the base, so the assignments [SetShape(s)] (61, 103, 128)
    do nothing. *)
Fixpoint visit_expr (e : expr) (a : addr) (fs : option (shape -> res shape)) {struct e} : M unit :=
  match e with
  | EType t => visit_typ t a fs
  | EUnion t1 t2 ts =>
      (make_concrete a "union" fs ;;;
       b <- rd get_base a ;;
       x1 <- make_new "" "" (b_loc b) ;;
       visit_typ t1 x1 None ;;;
       x2 <- make_new "" "" (b_loc b) ;;
       visit_typ t2 x2 None ;;;
       xs <- (fix members (l : list typ) : M (list addr) :=
                match l with
                | [] => ret []
                | t :: l' =>
                    x <- make_new "" "" (b_loc b) ;;
                    visit_typ t x None ;;;
                    r <- members l' ;;
                    ret (x :: r)
                end) ts ;;
       sl <- alloc (CSlice (x1 :: x2 :: xs)) ;;
       set_members a sl)%M
  end
with visit_typ (t : typ) (a : addr) (fs : option (shape -> res shape)) {struct t} : M unit :=
  match t with
  | TAtom at_ => visit_atom at_ a fs
  | TArray at_ =>
      (make_concrete a "array" fs ;;;
       b <- rd get_base a ;;
       i <- make_new "" "" (b_loc b) ;;
       visit_atom at_ i None ;;;
       upd_arr a (set_items (Some i)))%M
  | TOptional at_ =>
      (make_concrete a "union" fs ;;;
       b <- rd get_base a ;;
       x <- make_new "" "" (b_loc b) ;;
       visit_atom at_ x None ;;;
       nl <- make_new "" "nil" (b_loc b) ;;
       sl <- alloc (CSlice [x; nl]) ;;
       set_members a sl)%M
  end
with visit_atom (at_ : atom) (a : addr) (fs : option (shape -> res shape)) {struct at_} : M unit :=
  match at_ with
  | APrim p => make_concrete a (prim_text p) None
  | AGroup e => visit_expr e a fs
  | ARef s o => visit_ref (ref_text s o) a fs
  end.

(** resolveMultipleInheritance, /repo/resolve.go:87-100: the loop. *)
Fixpoint resolve_each (l : list addr) : M unit :=
  match l with
  | [] => ret tt
  | p :: l' => (rec p ;;; resolve_each l')%M
  end.
End Visit.

(** resolveShape, /repo/resolve.go:143-204, with resolveLink 102-112 and
    resolveMultipleInheritance 87-100. *)
Fixpoint resolve (n : nat) (E : renv) (a : addr) : M unit :=
  match n with
  | O => diverge
  | S n' =>
      (b <- rd get_base a ;;
       match b_shape b with
       | None => fail
       | Some SUnknown =>
           match b_link b with
           | Some l =>
               d <- rd get_dt l ;;
               match d with
               | None => mpanic
               | Some ds =>
                   resolve n' E ds ;;;
                   db <- rd get_base ds ;;
                   make_concrete a (b_type db) (rv_facets E a)
               end
           | None =>
               if String.eqb (b_type b) "composite" then
                 ps <- rd get_slice (b_inherits b) ;;
                 resolve_each (resolve n' E) ps ;;;
                 match ps with
                 | [] => mpanic
                 | p :: _ =>
                     pb <- rd get_base p ;;
                     make_concrete a (b_type pb) (rv_facets E a)
                 end
               else
                 match read_type (b_type b) with
                 | None => fail
                 | Some e => visit_expr E (resolve n' E) e a (rv_facets E a)
                 end
           end
       | Some _ => ret tt
       end)%M
  end.

(** resolveShapes, /repo/resolve.go:26-51: each shape of the list in turn; the
    result tells whether there was no error. *)
Fixpoint resolve_all (n : nat) (E : renv) (l : list addr) (good : bool) : M bool :=
  match l with
  | [] => ret good
  | a :: l' =>
      (r <- try (resolve n E a) ;;
       resolve_all n E l' (match r with Some _ => good | None => false end))%M
  end.
