(** Model of CloneShallow (/repo/shape.go:286-309). *)
From Coq Require Import ZArith List String Bool.
From Verif Require Import Base Scalars Heap.
Import ListNotations.
Open Scope string_scope.
Open Scope list_scope.

(** BaseShape.CloneShallow, /repo/shape.go:287-309: a copy of the struct with
    custom facets and facet definitions of its own and a copy of the concrete
    shape; the cloneShallow methods of the concrete shapes
    (/repo/complex.go:44-48, 349-353, 818-822, 936-940, 1003-1007, 1051-1055;
    /repo/scalars.go:85-87, 310-312, 507-509, 679-681, 828-830, 934-936,
    1039-1041, 1112-1114, 1185-1187, 1258-1260, 1323-1325) copy the struct, so
    that its slices and maps are those of the original. CustomDomainProperties
    are copied by value here as elsewhere. The entry in the maps of the copy is
    the same pointer (Node) or struct (Property). *)
Definition clone_shallow (a : addr) : M addr :=
  (b <- rd get_base a ;;
   fm <- rd get_facets (b_facets b) ;;
   fd <- rd get_props (b_fdefs b) ;;
   match b_shape b with
   | None => mpanic
   | Some sh =>
       fm' <- alloc (CFacets fm) ;;
       fd' <- alloc (CProps fd) ;;
       alloc (CBase (Base (b_id b) (b_name b) (b_loc b) (b_type b) (b_disp b) (b_desc b)
         (b_example b) (b_examples b) (b_default b) (b_required b) (b_domain b)
         (b_inherits b) (b_alias b) (b_link b) fm' fd' (b_unwrapped b) (b_visited b) (Some sh)))
   end)%M.
