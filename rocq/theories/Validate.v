(** Validation of values against the shape graph, facet checks, and validation
    of examples, defaults and custom facets. These operations only read the
    heap, so they are plain functions. No proofs here. *)
From Coq Require Import ZArith List String Bool.
From Verif Require Import Base Scalars Heap.
Import ListNotations.
Open Scope string_scope.
Open Scope Z_scope.

(** hashInterfaceFast, /repo/complex.go:74-82; [None] on a marshalling error. *)
Definition item_hash (O : oracle) (v : gval) : option Z :=
  match o_json O v with Some d => Some (o_hash O d) | None => None end.

(** [uniqueItems[itemHash] = struct{}{}], /repo/complex.go:113. *)
Definition hash_add (x : Z) (l : list Z) : list Z :=
  if existsb (Z.eqb x) l then l else x :: l.

(** The item loop, /repo/complex.go:100-115; returns the set of hashes. *)
Fixpoint items_loop (O : oracle) (rec : addr -> gval -> res unit) (items : option addr)
    (uniq : bool) (l : list gval) (seen : list Z) : res (list Z) :=
  match l with
  | [] => Ok seen
  | x :: l' =>
      rbind (match items with Some i => rec i x | None => Ok tt end) (fun _ =>
      if uniq then
        match item_hash O x with
        | None => Err
        | Some k => items_loop O rec items uniq l' (hash_add k seen)
        end
      else items_loop O rec items uniq l' seen)
  end.

(** ArrayShape.validate, /repo/complex.go:84-120. *)
Definition array_validate (O : oracle) (rec : addr -> gval -> res unit) (f : arr_facets)
    (v : gval) : res unit :=
  match v with
  | GArr l =>
      let n := Z.of_nat (List.length l) in
      if below Z.ltb n (a_min f) then Err
      else if above Z.ltb n (a_max f) then Err
      else
        let uniq := match a_uniq f with Some true => true | _ => false end in
        rbind (items_loop O rec (a_items f) uniq l []) (fun hs =>
        if uniq && negb (Nat.eqb (List.length hs) (List.length l)) then Err else Ok tt)
  | _ => Err
  end.

(** validatePatternProperty, /repo/complex.go:395-427. *)
Fixpoint pattern_loop (O : oracle) (rec : addr -> gval -> res unit) (k : string) (x : gval)
    (l : omap prop) (failed : bool) : res unit :=
  match l with
  | [] => if failed then Err else Ok tt
  | (_, p) :: l' =>
      if o_match O (p_name p) k then
        match rec (p_base p) x with
        | Ok _ => Ok tt
        | Err => pattern_loop O rec k x l' true
        | r => r
        end
      else pattern_loop O rec k x l' failed
  end.

(** findMissingRequired, /repo/complex.go:476-487: is anything missing? *)
Definition missing_required (props : omap prop) (kvs : list (string * gval)) : bool :=
  existsb (fun kp => p_req (snd kp) &&
                     negb (existsb (String.eqb (fst kp)) (map fst kvs))) props.

(** The loop of validateProperties, /repo/complex.go:453-472, in the order in
    which the Go map happens to be enumerated; with validateProperty 429-445. *)
Fixpoint props_loop (O : oracle) (rec : addr -> gval -> res unit) (props pprops : omap prop)
    (restricted : bool) (kvs : list (string * gval)) : res unit :=
  match kvs with
  | [] => Ok tt
  | (k, x) :: kvs' =>
      rbind (match oget k props with
             | Some p => rec (p_base p) x
             | None => if restricted then Err else pattern_loop O rec k x pprops false
             end) (fun _ => props_loop O rec props pprops restricted kvs')
  end.

(** ObjectShape.validate, /repo/complex.go:489-508 and 447-451. *)
Definition object_validate (O : oracle) (rec : addr -> gval -> res unit) (f : obj_facets)
    (props pprops : omap prop) (v : gval) : res unit :=
  match v with
  | GMap kvs =>
      let n := Z.of_nat (List.length kvs) in
      if below Z.ltb n (o_min f) then Err
      else if above Z.ltb n (o_max f) then Err
      else if missing_required props kvs then Err
      else props_loop O rec props pprops
             (match o_addl f with Some false => true | _ => false end) kvs
  | _ => Err
  end.

(** UnionShape.validate, /repo/complex.go:847-870. *)
Fixpoint union_validate (rec : addr -> gval -> res unit) (l : list addr) (v : gval) : res unit :=
  match l with
  | [] => Err
  | a :: l' =>
      match rec a v with
      | Ok _ => Ok tt
      | Err => union_validate rec l' v
      | r => r
      end
  end.

(** A nil-able property map as the pairs iterated over; a nil map has none
    (/repo/complex.go:399, 434, 478). *)
Definition opt_props (h : list cell) (o : option addr) : option (omap prop) :=
  match o with None => Some [] | Some m => get_props h m end.

(** BaseShape.Validate, /repo/shape.go:120-122, and the [validate] methods of
    all kinds: any /repo/scalars.go:1280-1282, JSON /repo/complex.go:948-951,
    unknown 1015-1017, recursive 1075-1080. *)
Fixpoint validate (n : nat) (O : oracle) (h : list cell) (a : addr) (v : gval) : res unit :=
  match n with
  | O%nat => OutOfFuel
  | S n' =>
      match get_base h a with
      | None => Panic
      | Some b =>
          match b_shape b with
          | None => Panic
          | Some SAny => Ok tt
          | Some SNil => nil_validate v
          | Some (SInt f) => int_validate O f v
          | Some (SNum f) => num_validate f v
          | Some (SStr f) => str_validate O f v
          | Some (SFile f) => file_validate f v
          | Some (SBool e) => bool_validate e v
          | Some (SDateTime f) => datetime_validate O f v
          | Some SDateTimeOnly => layout_validate O layout_datetime v
          | Some SDateOnly => layout_validate O layout_dateonly v
          | Some STimeOnly => layout_validate O layout_timeonly v
          | Some (SArray f) => array_validate O (validate n' O h) f v
          | Some (SObject f) =>
              match opt_props h (o_props f), opt_props h (o_pprops f) with
              | Some ps, Some pps => object_validate O (validate n' O h) f ps pps v
              | _, _ => Panic
              end
          | Some (SUnion sl _) =>
              match get_slice h sl with
              | Some l => union_validate (validate n' O h) l v
              | None => Panic
              end
          | Some (SJSON _) => Ok tt
          | Some SUnknown => Err
          | Some (SRec hd) => validate n' O h hd v
          end
      end
  end.

(** * Check *)

(** IsScalar, /repo/scalars.go:66-70 and /repo/complex.go:17-21. *)
Definition is_scalar (sh : shape) : bool :=
  match sh with
  | SArray _ | SObject _ | SUnion _ _ | SJSON _ | SUnknown | SRec _ => false
  | _ => true
  end.

(** [for ... { if err := x.Check(); err != nil { return err } }] over bases,
    /repo/complex.go:644-652, 661-668, 915-920. *)
Fixpoint check_all (rec : addr -> res unit) (l : list addr) : res unit :=
  match l with
  | [] => Ok tt
  | a :: l' => rbind (rec a) (fun _ => check_all rec l')
  end.

(** Bases of the pairs of a property map (/repo/complex.go:662). *)
Definition bases (l : omap prop) : list addr := map (fun kp => p_base (snd kp)) l.

(** The discriminator part of checkProperties, /repo/complex.go:669-693; the
    value is validated with [val]. *)
Definition check_discriminator (val : addr -> gval -> res unit) (h : list cell)
    (f : obj_facets) (ps : omap prop) : res unit :=
  match o_disc f with
  | None => Ok tt
  | Some d =>
      match oget d ps with
      | None => Err
      | Some p =>
          match get_base h (p_base p) with
          | None => Panic
          | Some b =>
              match b_shape b with
              | None => Panic
              | Some sh =>
                  if negb (is_scalar sh) then Err
                  else match o_discval f with
                       | None => Ok tt
                       | Some v => val (p_base p) v
                       end
              end
          end
      end
  end.

(** ObjectShape.check, /repo/complex.go:698-714, with checkPatternProperties
    633-654 and checkProperties 656-696. *)
Definition object_check (rec : addr -> res unit) (val : addr -> gval -> res unit)
    (h : list cell) (f : obj_facets) : res unit :=
  if crossed Z.ltb (o_min f) (o_max f) then Err
  else
    rbind (match o_pprops f with
           | None => Ok tt
           | Some m =>
               match o_addl f with
               | Some false => Err
               | _ =>
                   match get_props h m with
                   | None => Panic
                   | Some l => check_all rec (bases l)
                   end
               end
           end) (fun _ =>
    match o_props f with
    | None => match o_disc f with Some _ => Err | None => Ok tt end
    | Some m =>
        match get_props h m with
        | None => Panic
        | Some l =>
            rbind (check_all rec (bases l)) (fun _ => check_discriminator val h f l)
        end
    end).

(** BaseShape.Check, /repo/shape.go:379-381, and the [check] methods:
    /repo/scalars.go:204-226, 422-438, 603-617, 757-771, 886-895 and the
    unconditional nil of the date kinds, any and nil (999, 1082, 1155, 1228,
    1293, 1361); array /repo/complex.go:163-175, union 914-922, JSON 987-990,
    unknown 1032-1034, recursive 1087-1089. *)
Fixpoint check (n : nat) (O : oracle) (h : list cell) (a : addr) : res unit :=
  match n with
  | O%nat => OutOfFuel
  | S n' =>
      match get_base h a with
      | None => Panic
      | Some b =>
          match b_shape b with
          | None => Panic
          | Some (SInt f) => int_check f
          | Some (SNum f) => num_check f
          | Some (SStr f) => str_check f
          | Some (SFile f) => file_check f
          | Some (SBool e) => bool_check e
          | Some (SArray f) =>
              if crossed Z.ltb (a_min f) (a_max f) then Err
              else match a_items f with Some i => check n' O h i | None => Ok tt end
          | Some (SObject f) => object_check (check n' O h) (validate n' O h) h f
          | Some (SUnion sl _) =>
              match get_slice h sl with
              | Some l => check_all (check n' O h) l
              | None => Panic
              end
          | Some SUnknown => Err
          | Some _ => Ok tt
          end
      end
  end.

(** * Examples, defaults, custom facets *)

(** [for ... { if err := base.Validate(x); err != nil { return err } }]
    (/repo/validate.go:314-320). *)
Fixpoint validate_all (val : gval -> res unit) (l : list gval) : res unit :=
  match l with
  | [] => Ok tt
  | v :: l' => rbind (val v) (fun _ => validate_all val l')
  end.

(** validateExamples, /repo/validate.go:303-329. *)
Definition validate_examples (val : gval -> res unit) (b : base) : res unit :=
  rbind (match b_example b with Some v => val v | None => Ok tt end) (fun _ =>
  rbind (match b_examples b with
         | Some l => validate_all val (map snd l)
         | None => Ok tt
         end) (fun _ =>
  match b_default b with Some v => val v | None => Ok tt end)).

(** One parent of the loop of validateShapeFacets, /repo/validate.go:347-355:
    [Err] on a facet that the shape itself defines again. *)
Fixpoint collect_defs (own : omap prop) (l : omap prop) (acc : omap prop) : res (omap prop) :=
  match l with
  | [] => Ok acc
  | (_, f) :: l' =>
      match oget (p_name f) own with
      | Some _ => Err
      | None => collect_defs own l' (oset (p_name f) f acc)
      end
  end.

(** The loop up the first-parent chain, /repo/validate.go:342-357. *)
Fixpoint facet_defs (n : nat) (h : list cell) (own : omap prop) (inherits : addr)
    (acc : omap prop) : res (omap prop) :=
  match n with
  | O%nat => OutOfFuel
  | S n' =>
      match get_slice h inherits with
      | None => Panic
      | Some [] => Ok acc
      | Some (p :: _) =>
          match get_base h p with
          | None => Panic
          | Some pb =>
              match get_props h (b_fdefs pb) with
              | None => Panic
              | Some l =>
                  rbind (collect_defs own l acc) (fun acc' =>
                  facet_defs n' h own (b_inherits pb) acc')
              end
          end
      end
  end.

(** Validation of the given facets, /repo/validate.go:361-373, in one of the
    possible enumeration orders of the Go map. *)
Fixpoint facets_loop (val : addr -> gval -> res unit) (given : omap gval) (defs : omap prop)
    : res unit :=
  match defs with
  | [] => Ok tt
  | (k, d) :: defs' =>
      rbind (match oget k given with
             | None => if p_req d then Err else Ok tt
             | Some v => val (p_base d) v
             end) (fun _ => facets_loop val given defs')
  end.

(** validateShapeFacets, /repo/validate.go:333-383. *)
Definition validate_facets (n : nat) (val : addr -> gval -> res unit) (h : list cell)
    (b : base) : res unit :=
  match get_props h (b_fdefs b), get_facets h (b_facets b) with
  | Some own, Some given =>
      rbind (facet_defs n h own (b_inherits b) []) (fun defs =>
      rbind (facets_loop val given defs) (fun _ =>
      if forallb (fun kv => match oget (fst kv) defs with Some _ => true | None => false end)
           given
      then Ok tt else Err))
  | _, _ => Panic
  end.

(** validateShapeCommons, /repo/validate.go:257-299, with validateObjectShape
    230-253; hooks assumed absent. *)
Fixpoint commons (n : nat) (O : oracle) (h : list cell) (a : addr) : res unit :=
  match n with
  | O%nat => OutOfFuel
  | S n' =>
      match get_base h a with
      | None => Panic
      | Some b =>
          rbind (validate_facets n' (validate n' O h) h b) (fun _ =>
          rbind (validate_examples (validate n' O h a) b) (fun _ =>
          rbind (match b_shape b with
                 | Some (SObject f) =>
                     match opt_props h (o_props f), opt_props h (o_pprops f) with
                     | Some ps, Some pps =>
                         rbind (check_all (commons n' O h) (bases ps)) (fun _ =>
                         check_all (commons n' O h) (bases pps))
                     | _, _ => Panic
                     end
                 | Some (SArray f) =>
                     match a_items f with Some i => commons n' O h i | None => Ok tt end
                 | Some (SUnion sl _) =>
                     match get_slice h sl with
                     | Some l => check_all (commons n' O h) l
                     | None => Panic
                     end
                 | _ => Ok tt
                 end) (fun _ =>
          match get_props h (b_fdefs b) with
          | Some l => check_all (commons n' O h) (bases l)
          | None => Panic
          end)))
      end
  end.
