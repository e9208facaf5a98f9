(** The schema of a type, facet by facet (C64), and the order of properties from
    the text to the schema (C48). *)
From Coq Require Import ZArith List String Bool Ascii Lia.
From Verif Require Import Base Scalars Heap Schema Convert Spec_Validate Spec_Schema Spec_Describe Spec_Shown Shown_proofs.
From Verif Require Import Names Yaml Pipeline Decode Parse Props_Validate Props_Parse.
From Verif Require Spec_Names Spec_Decode Props_Decode Props_Routes.
Import ListNotations.
Open Scope string_scope.
Open Scope list_scope.
Open Scope nat_scope.

(** * C64 *)

(** Whatever type is converted, successfully, the document points to the
    definition of the type's name; the definition is the schema of the type,
    keyword by keyword and part by part all the way down; every other
    definition is the schema of a type of that name which the type leads to. *)
Theorem C64_document : forall n E a S0, convert n true E a = Ok S0 -> document_for E a S0.
Proof. exact (fun n E a S0 => convert_document E a n S0). Qed.
Print Assumptions C64_document.

(** * C48 *)

(** The properties of a type of a library are in the order in which their names
    first appear in the declaration, after every parse without error, with or
    without validation. *)
Theorem C48_declared : forall E n O o1 o2 o3 vl path0 text ep p path l lib doc T v,
  parse_string E n O o1 o2 o3 false vl text path0 = (Ok ep, p) ->
  oget path (p_frags p) = Some (FLib l) -> nth_error (p_libs p) l = Some lib ->
  (forall text', (path = path0 /\ text' = text) \/ e_read (d_y E) path = Some text' -> document E text' = Ok (Some doc)) ->
  Spec_Decode.last_of T (Spec_Decode.declarations_in "types" doc) = Some v -> ~ Spec_Decode.wrapped_name v ->
  exists x, oget T (l_types lib) = Some x
    /\ forall f, Spec_Validate.shape_at (heap (p_st p)) x (SObject f) ->
       exists m names, props_of (heap (p_st p)) (o_props f) m
         /\ Forall2 (fun kv name => fst kv = name \/ fst kv = (name ++ "?")%string)
              (Spec_Decode.plain_properties (Spec_Decode.own_facets v)) names
         /\ firsts names (map fst m).
Proof.
  intros E n O o1 o2 o3 vl path0 text ep p path l lib doc T v H Fr Lb Doc Lv W.
  destruct (Props_Routes.lib_declared _ _ _ _ _ _ _ _ _ _ _ _ _ _ _ _ _ H Fr Lb Doc Lv) as (x & Gx & R & Rx & HR).
  exists x. split; auto. intros f (b & Gb & Sb). destruct (HR _ _ _ _ Rx) as (b' & Gb' & _ & _ & Sh & _).
  assert (b' = b) by congruence. subst b'. destruct (Sh W) as (_ & sh & Sb' & _ & _ & _ & _ & Pm).
  assert (sh = SObject f) by congruence. subst sh. destruct Pm as (Pm & _). unfold Spec_Decode.property_map in Pm.
  destruct (o_props f) as [a|].
  - destruct Pm as (_ & m & Gm & Fm). destruct (filled_firsts _ _ _ Fm) as (names & F2 & Fi). exists m, names.
    split; [right; exists a; auto|]. split; [|exact Fi]. clear -F2. induction F2 as [|? ? ? ? (pr & _ & _ & xb & _ & D) _ IH]; constructor; auto.
    inversion D; subst; auto.
  - rewrite Pm. exists [], []. split; [left; auto|]. split; constructor.
Qed.
Print Assumptions C48_declared.

(** The schema lists the properties of an object type, and the names of the
    required ones, in the order of the type. *)
Theorem C48_schema : forall n E a S0 f l,
  convert n true E a = Ok S0 -> Spec_Validate.shape_at (c_heap E) a (SObject f) -> props_of (c_heap E) (o_props f) l ->
  exists b t, get_base (c_heap E) a = Some b /\ In (b_name b, t) (definitions S0)
    /\ map fst (entries (Spec_Schema.properties t)) = map fst l /\ required_of l (k_required (keywords t)).
Proof. exact (fun n E a S0 f l H => document_order E a S0 f l (convert_document E a n S0 H)). Qed.
Print Assumptions C48_schema.

(** ** A case: from the text to the schema *)

(** [T] has properties [z], [a?] and [m], and then [z] once more; [next] makes
    it recursive. *)
Definition d48 : disk :=
  [("a.raml", lib_head,
    mp [("types", mp
       [("T", mp [("type", sc "object"); ("displayName", sc "title");
                  ("properties", mp [("z", sc "integer"); ("a?", sc "string[]"); ("m", sc "boolean | nil"); ("z", sc "string"); ("next?", sc "T")])])])])].
Definition unwrapped48 : res entry_point * pst :=
  parse_string (on_disk d48) 40 exO ["a.raml"] ["a.raml"] ["a.raml"] true true (lib_head ++ "a.raml")%string "a.raml".
Definition type48 (p : pst) : addr :=
  match nth_error (p_libs p) 0 with Some lib => match oget "T" (l_types lib) with Some x => x | None => 0 end | None => 0 end.
Definition names48 (p : pst) : option (list string) :=
  match get_base (heap (p_st p)) (type48 p) with
  | Some b => match b_shape b with
              | Some (SObject f) => match o_props f with Some m => option_map (map fst) (get_props (heap (p_st p)) m) | None => None end
              | _ => None
              end
  | None => None
  end.
Definition env48 : cenv := {| c_heap := heap (p_st (snd unwrapped48)); c_dom := fun _ => GNil; c_json := fun _ => Null |}.

Example C48_C64_case :
  fst unwrapped48 = Ok (ELib 0)
  /\ names48 (snd unwrapped48) = Some ["z"; "a"; "m"; "next"]
  /\ exists S0 t u, convert 40 true env48 (type48 (snd unwrapped48)) = Ok S0
     /\ definitions S0 = [("T", t); ("next?", u)]
     /\ k_title (keywords t) = "title"
     /\ map fst (entries (Spec_Schema.properties t)) = ["z"; "a"; "m"; "next"]
     /\ k_required (keywords t) = ["z"; "m"]
     /\ map (fun ks => k_type (keywords (snd ks))) (entries (Spec_Schema.properties t)) = ["string"; "array"; ""; ""]
     /\ map (fun ks => k_ref (keywords (snd ks))) (entries (Spec_Schema.properties u)) = [""; ""; ""; "#/definitions/next?"].
Proof.
  split; [vm_compute; reflexivity|]. split; [vm_compute; reflexivity|]. eexists. eexists. eexists.
  split; [vm_compute; reflexivity|]. split; [reflexivity|]. split; [reflexivity|]. split; [reflexivity|]. split; [reflexivity|].
  split; reflexivity.
Qed.
