(** Where the types of a successful parse lead (C63). *)
From Coq Require Import ZArith List String Bool Ascii Lia.
From Verif Require Import Base Scalars Heap Heap_lemmas Rdt Names Spec_Names Yaml Spec_Yaml Validate Spec_Validate Spec_Model Spec_Resolve
  Model_check Validate_proofs Pipeline Decode Parse Spec_Parse Spec_Decode Decode_settle Props_Validate Props_Parse Props_Fresh Props_Decode.
From Verif Require Pipeline_proofs Resolve_proofs Names_proofs.
Import ListNotations.
Open Scope string_scope.
Open Scope list_scope.
Open Scope nat_scope.

(** * C63 *)

(** The type declared under [T] in the library at [path], whose text is [doc]. *)
Lemma lib_declared E n O o1 o2 o3 vl path0 text ep p path l lib doc T v :
  parse_string E n O o1 o2 o3 false vl text path0 = (Ok ep, p) ->
  oget path (p_frags p) = Some (FLib l) -> nth_error (p_libs p) l = Some lib ->
  (forall text', (path = path0 /\ text' = text) \/ e_read (d_y E) path = Some text' -> document E text' = Ok (Some doc)) ->
  last_of T (declarations_in "types" doc) = Some v ->
  exists x, oget T (l_types lib) = Some x /\ stated E p v T path x.
Proof.
  intros H Fr Lb Doc Lv.
  assert (X : exists text', ((path = path0 /\ text' = text) \/ e_read (d_y E) path = Some text') /\ fragment_says E p path text' (FLib l)).
  { destruct vl; [exact (C62_validated _ _ _ _ _ _ _ _ _ _ H path _ Fr)|exact (C62_as_written _ _ _ _ _ _ _ _ _ _ H path _ Fr)]. }
  destruct X as (text' & Tx & doc' & lib' & D' & Lb' & Ty & _).
  rewrite (Doc _ Tx) in D'. injection D' as <-. rewrite Lb in Lb'. injection Lb' as <-.
  exact (filled_last (fun k nd s x => stated E p nd k path x) _ _ _ _ Ty Lv).
Qed.

(** [T: {type: e, …}] or [T: e] in a library: the type under [T] is what the
    expression [e] says. *)
Theorem C63_expression : forall E n O o1 o2 o3 vl path0 text ep p path l lib doc T v t e,
  parse_string E n O o1 o2 o3 false vl text path0 = (Ok ep, p) ->
  oget path (p_frags p) = Some (FLib l) -> nth_error (p_libs p) l = Some lib ->
  (forall text', (path = path0 /\ text' = text) \/ e_read (d_y E) path = Some text' -> document E text' = Ok (Some doc)) ->
  last_of T (declarations_in "types" doc) = Some v ->
  type_node v = Some t -> expression t e -> y_value t <> "composite" ->
  exists x, oget T (l_types lib) = Some x /\ leads p path e (bare_type v) x.
Proof.
  intros E n O o1 o2 o3 vl path0 text ep p path l lib doc T v t e H Fr Lb Doc Lv Tn Ex Nc.
  destruct (lib_declared _ _ _ _ _ _ _ _ _ _ _ _ _ _ _ _ _ H Fr Lb Doc Lv) as (x & Gx & R & Rx & HR).
  exists x. split; auto. destruct (HR _ _ _ _ Rx) as (b & Gb & _ & _ & _ & Ro). now apply (Ro t Tn).
Qed.
Print Assumptions C63_expression.

(** [T: {type: !include path, …}] or [T: !include path]: there is a data type
    file for it, with a type, which is written in the file that the path leads
    to from here, and the type under [T] is of the same kind. *)
Theorem C63_include : forall E n O o1 o2 o3 vl path0 text ep p path l lib doc T v t,
  parse_string E n O o1 o2 o3 false vl text path0 = (Ok ep, p) ->
  oget path (p_frags p) = Some (FLib l) -> nth_error (p_libs p) l = Some lib ->
  (forall text', (path = path0 /\ text' = text) \/ e_read (d_y E) path = Some text' -> document E text' = Ok (Some doc)) ->
  last_of T (declarations_in "types" doc) = Some v ->
  type_node v = Some t -> y_kind t = KScalar -> y_tag t = "!include" ->
  exists x b k y, oget T (l_types lib) = Some x /\ get_base (heap (p_st p)) x = Some b /\ b_link b = Some k
    /\ get_dt (heap (p_st p)) k = Some (Some y) /\ of_kind p y (b_type b)
    /\ exists yb, get_base (heap (p_st p)) y = Some yb /\ b_loc yb = e_join (d_y E) path (y_value t).
Proof.
  intros E n O o1 o2 o3 vl path0 text ep p path l lib doc T v t H Fr Lb Doc Lv Tn Kt Tt.
  destruct (lib_declared _ _ _ _ _ _ _ _ _ _ _ _ _ _ _ _ _ H Fr Lb Doc Lv) as (x & Gx & R & Rx & HR).
  destruct (HR _ _ _ _ Rx) as (b & Gb & _ & _ & _ & Ro). destruct (Ro t Tn) as (_ & I & _). destruct (I Kt Tt) as (k & y & Q). exists x, b, k, y. auto.
Qed.
Print Assumptions C63_include.

(** [T: {type: [e1, …], …}]: one parent for each entry, as the entry says, and
    the type under [T] is of the kind of the first. *)
Theorem C63_parents : forall E n O o1 o2 o3 vl path0 text ep p path l lib doc T v t,
  parse_string E n O o1 o2 o3 false vl text path0 = (Ok ep, p) ->
  oget path (p_frags p) = Some (FLib l) -> nth_error (p_libs p) l = Some lib ->
  (forall text', (path = path0 /\ text' = text) \/ e_read (d_y E) path = Some text' -> document E text' = Ok (Some doc)) ->
  last_of T (declarations_in "types" doc) = Some v ->
  type_node v = Some t -> y_kind t = KSeq ->
  exists x b y ys, oget T (l_types lib) = Some x /\ get_base (heap (p_st p)) x = Some b
    /\ get_slice (heap (p_st p)) (b_inherits b) = Some (y :: ys) /\ of_kind p y (b_type b)
    /\ Forall2 (fun nd z => stated E p nd T path z) (y_content t) (y :: ys).
Proof.
  intros E n O o1 o2 o3 vl path0 text ep p path l lib doc T v t H Fr Lb Doc Lv Tn Kt.
  destruct (lib_declared _ _ _ _ _ _ _ _ _ _ _ _ _ _ _ _ _ H Fr Lb Doc Lv) as (x & Gx & R & Rx & HR).
  destruct (HR _ _ _ _ Rx) as (b & Gb & _ & Pa & _ & Ro). destruct (Ro t Tn) as (_ & _ & S). destruct (S Kt) as (y & ys & Gs & Ky).
  exists x, b, y, ys. split; auto. split; auto. split; auto. split; auto.
  destruct (proj1 Pa t Tn Kt) as (l' & Gl & F). change (get_slice (heap (p_st p)) (b_inherits b) = Some l') in Gl. rewrite Gs in Gl. injection Gl as <-.
  clear - F HR. induction F as [|nd z nds zs H F IH]; constructor; auto. exists R. auto.
Qed.
Print Assumptions C63_parents.

(** ** A name *)

(** [T: U] in a library, [U] not a built-in type: [T] is an alias of the type
    declared under [U] there, and of its kind. *)
Theorem C63_alias : forall E n O o1 o2 o3 vl path0 text ep p path l lib doc T v U,
  parse_string E n O o1 o2 o3 false vl text path0 = (Ok ep, p) ->
  oget path (p_frags p) = Some (FLib l) -> nth_error (p_libs p) l = Some lib ->
  (forall text', (path = path0 /\ text' = text) \/ e_read (d_y E) path = Some text' -> document E text' = Ok (Some doc)) ->
  last_of T (declarations_in "types" doc) = Some v ->
  y_kind v = KScalar -> y_tag v = "!!str" -> y_value v = U -> U <> "" -> U <> "composite" -> builtin U = false -> no_dot U ->
  read_type U = Some (EType (TAtom (ARef U None))) ->
  exists x r b, oget T (l_types lib) = Some x /\ oget U (l_types lib) = Some r
    /\ get_base (heap (p_st p)) x = Some b /\ b_alias b = Some r /\ of_kind p r (b_type b).
Proof.
  intros E n O o1 o2 o3 vl path0 text ep p path l lib doc T v U H Fr Lb Doc Lv Kv Tv Vv Ne Nc Bu Nd Re.
  assert (Tn : type_node v = Some v) by (unfold type_node; now rewrite Kv).
  assert (Ex : expression v (EType (TAtom (ARef U None)))).
  { split; auto. split; auto. rewrite Vv. split; auto. split; [|auto]. intros s ->. clear - Re. unfold read_type, lex in Re. cbn in Re. discriminate. }
  destruct (C63_expression _ _ _ _ _ _ _ _ _ _ _ _ _ _ _ _ _ _ _ H Fr Lb Doc Lv Tn Ex ltac:(congruence)) as (x & Gx & r & b & Rf & Gb & K & Al).
  exists x, r, b. split; auto. unfold bare_type in Al. rewrite Kv in Al. unfold refers in Rf. rewrite Fr in Rf. destruct Rf as (lib' & Lb' & D).
  rewrite Lb in Lb'. injection Lb' as <-. split; auto. cbn [ref_name] in D. inversion D as [nm a0 G Q|al T0 la lb a0 N0 G0 G1 G2 G3 Q]; auto.
  exfalso. apply (Names_proofs.has_dot al T0). now rewrite Q.
Qed.
Print Assumptions C63_alias.

(** [T: {type: U, …}]: the parents of [T] are the type declared under [U] there. *)
Theorem C63_parent : forall E n O o1 o2 o3 vl path0 text ep p path l lib doc T v t U,
  parse_string E n O o1 o2 o3 false vl text path0 = (Ok ep, p) ->
  oget path (p_frags p) = Some (FLib l) -> nth_error (p_libs p) l = Some lib ->
  (forall text', (path = path0 /\ text' = text) \/ e_read (d_y E) path = Some text' -> document E text' = Ok (Some doc)) ->
  last_of T (declarations_in "types" doc) = Some v -> y_kind v = KMap -> last_of "type" (entries v) = Some t ->
  y_kind t = KScalar -> y_tag t = "!!str" -> y_value t = U -> U <> "" -> U <> "composite" -> builtin U = false -> no_dot U ->
  read_type U = Some (EType (TAtom (ARef U None))) ->
  exists x r b ps, oget T (l_types lib) = Some x /\ oget U (l_types lib) = Some r
    /\ get_base (heap (p_st p)) x = Some b /\ of_kind p r (b_type b)
    /\ get_slice (heap (p_st p)) (b_inherits b) = Some ps /\ ps <> [] /\ forall y, In y ps -> y = r.
Proof.
  intros E n O o1 o2 o3 vl path0 text ep p path l lib doc T v t U H Fr Lb Doc Lv Kv Lt Kt Tt Vt Ne Nc Bu Nd Re.
  assert (Tn : type_node v = Some t) by (unfold type_node; now rewrite Kv).
  assert (Ex : expression t (EType (TAtom (ARef U None)))).
  { split; auto. split; auto. rewrite Vt. split; auto. split; [|auto]. intros s ->. clear - Re. unfold read_type, lex in Re. cbn in Re. discriminate. }
  destruct (C63_expression _ _ _ _ _ _ _ _ _ _ _ _ _ _ _ _ _ _ _ H Fr Lb Doc Lv Tn Ex ltac:(congruence)) as (x & Gx & r & b & Rf & Gb & K & Al).
  unfold bare_type in Al. rewrite Kv in Al. destruct Al as (ps & Gp & Np & Ap).
  exists x, r, b, ps. split; auto. unfold refers in Rf. rewrite Fr in Rf. destruct Rf as (lib' & Lb' & D).
  rewrite Lb in Lb'. injection Lb' as <-. split; [|auto]. cbn [ref_name] in D. inversion D as [nm a0 G Q|al T0 la lb a0 N0 G0 G1 G2 G3 Q]; auto.
  exfalso. apply (Names_proofs.has_dot al T0). now rewrite Q.
Qed.
Print Assumptions C63_parent.

(** ** A data type file *)

Theorem C63_data_type : forall E n O o1 o2 o3 vl path0 text ep p path uses o,
  parse_string E n O o1 o2 o3 false vl text path0 = (Ok ep, p) -> oget path (p_frags p) = Some (FDT uses o) ->
  has_suffix ".json" path = false ->
  exists text' doc x, ((path = path0 /\ text' = text) \/ e_read (d_y E) path = Some text') /\ document E text' = Ok (Some doc) /\ o = Some x
    /\ forall t e, last_of "type" (type_entries doc) = Some t -> expression t e -> y_value t <> "composite" -> leads p path e false x.
Proof.
  intros E n O o1 o2 o3 vl path0 text ep p path uses o H Fr Js.
  assert (X : exists text', ((path = path0 /\ text' = text) \/ e_read (d_y E) path = Some text') /\ fragment_says E p path text' (FDT uses o)).
  { destruct vl; [exact (C62_validated _ _ _ _ _ _ _ _ _ _ H path _ Fr)|exact (C62_as_written _ _ _ _ _ _ _ _ _ _ H path _ Fr)]. }
  destruct X as (text' & Tx & doc & v & x & Q & D & Kv & En & R & Rx & HR). rewrite Js in D.
  exists text', doc, x. split; auto. split; auto. split; auto. intros t e Lt Ex Nc.
  destruct (HR _ _ _ _ Rx) as (b & Gb & _ & _ & _ & Ro).
  assert (Tn : type_node v = Some t) by (unfold type_node; now rewrite Kv, En).
  destruct (Ro t Tn) as (A & _). specialize (A e Ex Nc). unfold bare_type in A. now rewrite Kv in A.
Qed.
Print Assumptions C63_data_type.

(** ** An instance *)

(** A library with an alias, a parent, a union, an array of a union, an optional
    type, an inclusion and a list of parents; a data type file with a parent. *)
Definition d63 : disk :=
  [("a.raml", lib_head,
    mp [("uses", mp [("b", sc "b.raml")]);
        ("types", mp
          [("A", mp [("type", sc "string"); ("minLength", int "3")]);
           ("B", sc "A");
           ("C", mp [("type", sc "A"); ("maxLength", int "7")]);
           ("D", sc "A | b.N | nil");
           ("F", mp [("type", sc "(A | B)[]"); ("minItems", int "3")]);
           ("G", sc "b.N?");
           ("H", mp [("type", inc "t.raml"); ("description", sc "words")]);
           ("P", mp [("type", sq [sc "b.M"; sc "Q"])]);
           ("Q", mp [("properties", mp [("q", sc "B")])])])]);
   ("b.raml", lib_head, mp [("types", mp [("N", sc "number"); ("M", mp [("type", sc "object"); ("properties", mp [("m", sc "N")])])])]);
   ("t.raml", dt_head, mp [("uses", mp [("c", sc "b.raml")]); ("type", sc "c.N"); ("description", sc "words")])].
Definition files63 : list string := ["a.raml"; "b.raml"; "t.raml"].
Definition p63 : pst := snd (whole62 d63 60 "a.raml").
Definition doc63 : ynode := snd (hd ("", "", nl) d63).
Lemma parsed63 : parse_string (on62 d63) 60 exO files63 files63 files63 false false (lib_head ++ "a.raml")%string "a.raml" = (Ok (ELib 1), p63).
Proof. vm_compute. reflexivity. Qed.
Lemma text63 : forall text', ("a.raml" = "a.raml" /\ text' = (lib_head ++ "a.raml")%string) \/ e_read (d_y (on62 d63)) "a.raml" = Some text' ->
  document (on62 d63) text' = Ok (Some doc63).
Proof.
  intros text [(_ & ->)|R]; [vm_compute; reflexivity|].
  assert (R' : e_read (d_y (on62 d63)) "a.raml" = Some (lib_head ++ "a.raml")%string) by (vm_compute; reflexivity).
  rewrite R' in R. injection R as <-. vm_compute. reflexivity.
Qed.
Lemma frag63 : oget "a.raml" (p_frags p63) = Some (FLib 1). Proof. vm_compute. reflexivity. Qed.
Definition lib63 : library := match nth_error (p_libs p63) 1 with Some l => l | None => {| l_types := []; l_annots := []; l_uses := [] |} end.
Lemma found63 : nth_error (p_libs p63) 1 = Some lib63. Proof. vm_compute. reflexivity. Qed.

Example C63_alias_case : exists x r b, oget "B" (l_types lib63) = Some x /\ oget "A" (l_types lib63) = Some r
  /\ get_base (heap (p_st p63)) x = Some b /\ b_alias b = Some r /\ of_kind p63 r (b_type b).
Proof.
  apply (C63_alias _ _ _ _ _ _ _ _ _ _ _ _ _ _ _ "B" (sc "A") "A" parsed63 frag63 found63 text63); try (vm_compute; reflexivity); try discriminate.
  intros [Q|[]]. discriminate.
Qed.

Example C63_parent_case : exists x r b ps, oget "C" (l_types lib63) = Some x /\ oget "A" (l_types lib63) = Some r
  /\ get_base (heap (p_st p63)) x = Some b /\ of_kind p63 r (b_type b)
  /\ get_slice (heap (p_st p63)) (b_inherits b) = Some ps /\ ps <> [] /\ forall y, In y ps -> y = r.
Proof.
  apply (C63_parent _ _ _ _ _ _ _ _ _ _ _ _ _ _ _ "C" (mp [("type", sc "A"); ("maxLength", int "7")]) (sc "A") "A" parsed63 frag63 found63 text63);
    try (vm_compute; reflexivity); try discriminate.
  intros [Q|[]]. discriminate.
Qed.

Lemma expression63 t e : read_type t = Some e -> builtin t = false -> t <> "" -> (forall s, t <> String "{"%char s) -> expression (sc t) e.
Proof. intros R B N S. repeat (split; auto). Qed.

Example C63_expression_case : exists x y z, oget "D" (l_types lib63) = Some x /\ oget "F" (l_types lib63) = Some y /\ oget "G" (l_types lib63) = Some z
  /\ leads p63 "a.raml" (EUnion (TAtom (ARef "A" None)) (TAtom (ARef "b.N" None)) [TAtom (APrim PNil)]) true x
  /\ leads p63 "a.raml" (EType (TArray (AGroup (EUnion (TAtom (ARef "A" None)) (TAtom (ARef "B" None)) [])))) false y
  /\ leads p63 "a.raml" (EType (TOptional (ARef "b.N" None))) true z.
Proof.
  destruct (C63_expression _ _ _ _ _ _ _ _ _ _ _ _ _ _ _ "D" (sc "A | b.N | nil") (sc "A | b.N | nil")
    (EUnion (TAtom (ARef "A" None)) (TAtom (ARef "b.N" None)) [TAtom (APrim PNil)]) parsed63 frag63 found63 text63) as (x & Gx & Lx).
  1-2: vm_compute; reflexivity. 1: (apply expression63; [vm_compute; reflexivity|vm_compute; reflexivity|discriminate|discriminate]). 1: discriminate.
  destruct (C63_expression _ _ _ _ _ _ _ _ _ _ _ _ _ _ _ "F" (mp [("type", sc "(A | B)[]"); ("minItems", int "3")]) (sc "(A | B)[]")
    (EType (TArray (AGroup (EUnion (TAtom (ARef "A" None)) (TAtom (ARef "B" None)) [])))) parsed63 frag63 found63 text63) as (y & Gy & Ly).
  1-2: vm_compute; reflexivity. 1: (apply expression63; [vm_compute; reflexivity|vm_compute; reflexivity|discriminate|discriminate]). 1: discriminate.
  destruct (C63_expression _ _ _ _ _ _ _ _ _ _ _ _ _ _ _ "G" (sc "b.N?") (sc "b.N?")
    (EType (TOptional (ARef "b.N" None))) parsed63 frag63 found63 text63) as (z & Gz & Lz).
  1-2: vm_compute; reflexivity. 1: (apply expression63; [vm_compute; reflexivity|vm_compute; reflexivity|discriminate|discriminate]). 1: discriminate.
  exists x, y, z. split; [exact Gx|]. split; [exact Gy|]. split; [exact Gz|]. split; [exact Lx|]. split; [exact Ly|exact Lz].
Qed.

Example C63_include_case : exists x b k y, oget "H" (l_types lib63) = Some x /\ get_base (heap (p_st p63)) x = Some b /\ b_link b = Some k
  /\ get_dt (heap (p_st p63)) k = Some (Some y) /\ of_kind p63 y (b_type b)
  /\ exists yb, get_base (heap (p_st p63)) y = Some yb /\ b_loc yb = "t.raml".
Proof.
  apply (C63_include _ _ _ _ _ _ _ _ _ _ _ _ _ _ _ "H" (mp [("type", inc "t.raml"); ("description", sc "words")]) (inc "t.raml") parsed63 frag63 found63 text63);
    vm_compute; reflexivity.
Qed.

Example C63_parents_case : exists x b y ys, oget "P" (l_types lib63) = Some x /\ get_base (heap (p_st p63)) x = Some b
  /\ get_slice (heap (p_st p63)) (b_inherits b) = Some (y :: ys) /\ of_kind p63 y (b_type b)
  /\ Forall2 (fun nd z => stated (on62 d63) p63 nd "P" "a.raml" z) [sc "b.M"; sc "Q"] (y :: ys).
Proof.
  apply (C63_parents _ _ _ _ _ _ _ _ _ _ _ _ _ _ _ "P" (mp [("type", sq [sc "b.M"; sc "Q"])]) (sq [sc "b.M"; sc "Q"]) parsed63 frag63 found63 text63);
    vm_compute; reflexivity.
Qed.

Example C63_data_type_case : exists u x, oget "t.raml" (p_frags p63) = Some (FDT u (Some x))
  /\ leads p63 "t.raml" (EType (TAtom (ARef "c.N" None))) false x.
Proof.
  assert (X : exists u x, oget "t.raml" (p_frags p63) = Some (FDT u (Some x))) by (eexists; eexists; vm_compute; reflexivity).
  destruct X as (u & x & G). exists u, x. split; auto.
  destruct (C63_data_type _ _ _ _ _ _ _ _ _ _ _ _ _ _ parsed63 G eq_refl) as (text' & doc & x' & [(Q & _)|R] & D & Qx & L); [discriminate|].
  injection Qx as <-. assert (R' : e_read (d_y (on62 d63)) "t.raml" = Some (dt_head ++ "t.raml")%string) by (vm_compute; reflexivity).
  assert (Q : text' = (dt_head ++ "t.raml")%string) by congruence. clear R R'. subst text'.
  assert (D' : document (on62 d63) (dt_head ++ "t.raml")%string = Ok (Some (mp [("uses", mp [("c", sc "b.raml")]); ("type", sc "c.N"); ("description", sc "words")]))) by (vm_compute; reflexivity).
  rewrite D' in D. injection D as <-. apply (L (sc "c.N")); [vm_compute; reflexivity| |discriminate].
  apply expression63; [vm_compute; reflexivity|vm_compute; reflexivity|discriminate|discriminate].
Qed.

(** ** A type that is called composite *)

(** [types: {composite: string, T: composite}]: the name stands for a list of
    parents, and there is none (/repo/resolve.go:87-100). *)
Definition d63c : disk := [("a.raml", lib_head, mp [("types", mp [("composite", sc "string"); ("T", sc "composite")])])].
Theorem C63_composite_refuted : fst (whole62 d63c 40 "a.raml") = Panic.
Proof. vm_compute. reflexivity. Qed.
Print Assumptions C63_composite_refuted.
