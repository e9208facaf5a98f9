(** The refuted claims seen from RAML documents: for each of them a library
    file that parses (and unwraps) without an error and shows the effect on its
    declared types. The other witnesses are models built by hand, or smaller
    functions. *)
From Coq Require Import ZArith List String Bool Ascii Lia.
From Verif Require Import Base Scalars Spec_Scalars Heap Validate Spec_Validate Names Yaml Spec_Names Pipeline Spec_Pipeline Decode Parse Spec_Decode Schema Convert Spec_Schema
  Props_Validate Props_Inherit Props_Parse Props_Fresh Props_Scalars Props_Convert Props_Convert_limits Props_Added.
From Verif Require Validate_proofs Check_proofs Props_Decode Props_Pipeline Keep_facets Heap_lemmas Parse_fresh.
Import ListNotations.
Open Scope string_scope.
Open Scope list_scope.
Open Scope nat_scope.

(** Files whose scalars are booleans, digits and strings. *)
Definition digit (x : string) : option Z :=
  match x with
  | String c EmptyString =>
      let n := nat_of_ascii c in if Nat.leb 48 n && Nat.leb n 57 then Some (Z.of_nat (n - 48)) else None
  | _ => None
  end.
Definition typed (d : disk) : denv :=
  let E := on_disk d in let Y0 := d_y E in
  {| d_y := {| e_scalar := fun t v =>
                 if String.eqb t "!!bool" then Some (GBool (String.eqb v "true"))
                 else if String.eqb t "!!int" then option_map GInt (digit v) else Some (GStr v);
               e_join := e_join Y0; e_ext := e_ext Y0; e_read := e_read Y0; e_yaml := e_yaml Y0; e_json := e_json Y0 |};
     d_bool := d_bool E; d_text := d_text E; d_uint := fun v => option_map Some (digit (y_value v)); d_float := d_float E;
     d_any := d_any E; d_string := d_string E; d_strict := d_strict E; d_int := digit; d_re := d_re E; d_schema := d_schema E;
     d_base := d_base E |}.
Definition int (x : string) : ynode := Y KScalar "!!int" x [].
Definition truth (x : string) : ynode := Y KScalar "!!bool" x [].
Definition properties_of (l : list (string * ynode)) : string * ynode := ("properties", mp l).
Definition x_of (v : gval) : gval := GMap [("x", v)].

(** Parsing [a.raml] with unwrapping, fragments being visited in the order
    [o]. *)
Definition run (d : disk) (o : list string) : res entry_point * pst :=
  parse_string (typed d) 40 exO o o o true false (lib_head ++ "a.raml")%string "a.raml".
(** The library with the types [ts] parses, with the model [p]. *)
Definition gives (ts : list (string * ynode)) (p : pst) : Prop :=
  run (library_of ts) ["a.raml"] = (Ok (ELib 0), p).
(** Validate on a declared type. *)
Definition verdict (p : pst) (name : string) (v : gval) : res unit :=
  match type_in p name with Some a => validate 12 exO (heap (p_st p)) a v | None => Panic end.

Ltac shown := eexists; repeat (split; [vm_compute; reflexivity|]); vm_compute; reflexivity.

(** * C02, C04 *)

(** [T: integer] accepts 1.5. *)
Theorem C02_document_refuted : exists p, gives [("T", sc "integer")] p /\ verdict p "T" (GFloat f1_5) = Ok tt.
Proof. shown. Qed.
Print Assumptions C02_document_refuted.

(** [T: {type: number, enum: [1, 2]}] accepts no integer. *)
Theorem C04_document_refuted : exists p,
  gives [("T", mp [("type", sc "number"); ("enum", sq [int "1"; int "2"])])] p
  /\ verdict p "T" (GInt 1) = Err /\ verdict p "T" (GInt 2) = Err.
Proof. shown. Qed.
Print Assumptions C04_document_refuted.

(** * C14 *)

(** [P: {type: string, pattern: ab}], [C: {type: P, pattern: c}]: a value of C
    that is none of P. *)
Theorem C14_document_refuted : exists p,
  gives [("P", mp [("type", sc "string"); ("pattern", sc "ab")]); ("C", mp [("type", sc "P"); ("pattern", sc "c")])] p
  /\ verdict p "C" (GStr "cd") = Ok tt /\ verdict p "P" (GStr "cd") = Err.
Proof. shown. Qed.
Print Assumptions C14_document_refuted.

(** * C17 *)

(** [P: {x: string}], [C: {type: P, x: integer | boolean}] is accepted, and C and
    P have no value of x in common. *)
Theorem C17_document_refuted : exists p,
  gives [("P", mp [properties_of [("x", sc "string")]]);
         ("C", mp [("type", sc "P"); properties_of [("x", sc "integer | boolean")]])] p
  /\ verdict p "C" (x_of (GInt 1)) = Ok tt /\ verdict p "P" (x_of (GInt 1)) = Err
  /\ verdict p "C" (x_of (GStr "a")) = Err /\ verdict p "P" (x_of (GStr "a")) = Ok tt.
Proof. shown. Qed.
Print Assumptions C17_document_refuted.

(** * C18 *)

(** [P: {p: string | integer}], [A: {type: P, p: string}], [B: {type: P, p:
    boolean}]: B alone is an error, as it should be. After A it is not. *)
Definition decl_p : string * ynode := ("P", mp [properties_of [("p", sc "string | integer")]]).
Definition decl_a (t : string) : string * ynode := ("A", mp [("type", sc t); properties_of [("p", sc "string")]]).
Definition decl_b (t : string) : string * ynode := ("B", mp [("type", sc t); properties_of [("p", sc "boolean")]]).
Theorem C18_document_refuted : exists p,
  gives [decl_p; decl_a "P"; decl_b "P"] p /\ verdict p "B" (GMap [("p", GBool true)]) = Ok tt
  /\ verdict p "P" (GMap [("p", GBool true)]) = Err
  /\ fst (run (library_of [decl_p; decl_b "P"]) ["a.raml"]) = Err
  /\ fst (run (library_of [decl_p; decl_b "P"; decl_a "P"]) ["a.raml"]) = Err.
Proof. shown. Qed.
Print Assumptions C18_document_refuted.

(** * C52 *)

(** A in one library and B in another one: whether parsing succeeds depends on
    the order in which Go visits the map of fragments. *)
Definition d52 : disk :=
  [("a.raml", lib_head, mp [("uses", mp [("b", sc "b.raml")]); ("types", mp [decl_b "b.P"])]);
   ("b.raml", lib_head, mp [("types", mp [decl_p; decl_a "P"])])].
Theorem C52_document_refuted :
  is_ok (fst (run d52 ["b.raml"; "a.raml"])) = true /\ fst (run d52 ["a.raml"; "b.raml"]) = Err.
Proof. split; vm_compute; reflexivity. Qed.
Print Assumptions C52_document_refuted.

(** * C47 *)

(** [A: {type: boolean, enum: [true]}], [B: A]. *)
Theorem C47_document_refuted : exists p,
  gives [("A", mp [("type", sc "boolean"); ("enum", sq [truth "true"])]); ("B", sc "A")] p
  /\ verdict p "B" (GBool false) = Ok tt /\ verdict p "A" (GBool false) = Err.
Proof. shown. Qed.
Print Assumptions C47_document_refuted.

(** [P: {minProperties: 1}], [A: {type: P, x?: B}], [B: A]. *)
Theorem C47_recursive_document_refuted : exists p,
  gives [("P", mp [("type", sc "object"); ("minProperties", int "1")]);
         ("A", mp [("type", sc "P"); properties_of [("x?", sc "B")]]); ("B", sc "A")] p
  /\ verdict p "B" (GMap []) = Ok tt /\ verdict p "A" (GMap []) = Err.
Proof. shown. Qed.
Print Assumptions C47_recursive_document_refuted.

(** * C51 *)

(** [S] are strings of at most 3 characters, [A] of 4 to 5, [B] of 2 to 3.
    [P: {x: S | integer}], [C: {type: P, x: A | B | integer}]: C accepts the empty
    string, which none of its members does. Without A it does not. *)
Definition decl_s (name lo hi : string) : string * ynode :=
  (name, mp [("type", sc "string"); ("minLength", int lo); ("maxLength", int hi)]).
Definition decls51 (t : string) : list (string * ynode) :=
  [decl_s "S" "0" "3"; decl_s "A" "4" "5"; decl_s "B" "2" "3";
   ("P", mp [properties_of [("x", sc "S | integer")]]);
   ("C", mp [("type", sc "P"); properties_of [("x", sc t)]]); ("U", sc t)].
Theorem C51_document_refuted :
  (exists p, gives (decls51 "A | B | integer") p
     /\ verdict p "C" (x_of (GStr "")) = Ok tt /\ verdict p "U" (GStr "") = Err)
  /\ exists p, gives (decls51 "B | integer") p /\ verdict p "C" (x_of (GStr "")) = Err
     /\ verdict p "C" (x_of (GStr "ab")) = Ok tt.
Proof. split; shown. Qed.
Print Assumptions C51_document_refuted.

(** * C53 *)

(** [X: any], [A: {type: X}], [B: {type: X, description: …}]: after unwrapping the
    name B leads to the type X, and its description is lost. *)
Theorem C53_document_refuted : exists p a b,
  gives [("X", sc "any"); ("A", mp [("type", sc "X")]); ("B", mp [("type", sc "X"); ("description", sc "about B")])] p
  /\ type_in p "B" = Some a /\ type_in p "X" = Some a /\ get_base (heap (p_st p)) a = Some b
  /\ b_name b = "X" /\ b_desc b = None.
Proof. do 2 eexists. shown. Qed.
Print Assumptions C53_document_refuted.

(** * C55 *)

(** [P: {a?: string, additionalProperties: false}], [C: {type: P,
    additionalProperties: true}], [D: {type: P, x: string}]. *)
Theorem C55_document_refuted : exists p,
  gives [("P", mp [properties_of [("a?", sc "string")]; ("additionalProperties", truth "false")]);
         ("C", mp [("type", sc "P"); ("additionalProperties", truth "true")]);
         ("D", mp [("type", sc "P"); properties_of [("x", sc "string")]])] p
  /\ verdict p "C" (x_of (GStr "v")) = Ok tt /\ verdict p "D" (x_of (GStr "v")) = Ok tt
  /\ verdict p "P" (x_of (GStr "v")) = Err.
Proof. shown. Qed.
Print Assumptions C55_document_refuted.

(** * C59 *)

(** [F: {type: file, fileTypes: []}] and [J: json] parse and are valid, their
    conversion panics. *)
Theorem C59_document_refuted : exists p f j,
  gives [("F", mp [("type", sc "file"); ("fileTypes", sq [])]); ("J", sc "json")] p
  /\ type_in p "F" = Some f /\ type_in p "J" = Some j
  /\ check 12 exO (heap (p_st p)) f = Ok tt /\ check 12 exO (heap (p_st p)) j = Ok tt
  /\ convert 12 true (env (heap (p_st p))) f = Panic /\ convert 12 true (env (heap (p_st p))) j = Panic.
Proof. do 2 eexists. shown. Qed.
Print Assumptions C59_document_refuted.

(** * C12 *)

(** [U: U | string] parses, is unwrapped and marked, and its validation never
    ends, whatever the value. *)
Theorem C12_document_refuted : exists p a, gives [("U", sc "U | string")] p /\ type_in p "U" = Some a
  /\ forall n v, validate n exO (heap (p_st p)) a v = OutOfFuel.
Proof.
  assert (W : exists p, gives [("U", sc "U | string")] p /\ type_in p "U" = Some 3
     /\ Spec_Validate.shape_at (heap (p_st p)) 3 (SUnion 14 None) /\ Spec_Validate.shape_at (heap (p_st p)) 8 (SUnion 14 None)
     /\ Spec_Validate.shape_at (heap (p_st p)) 18 (SRec 8) /\ get_slice (heap (p_st p)) 14 = Some [18; 13]).
  { eexists. split; [vm_compute; reflexivity|]. split; [vm_compute; reflexivity|].
    repeat (split; [eexists; split; vm_compute; reflexivity|]). vm_compute. reflexivity. }
  destruct W as (p & G & T & (b3 & G3 & S3) & (b8 & G8 & S8) & (b18 & G18 & S18) & Sl).
  exists p, 3. split; [exact G|]. split; [exact T|]. clear G T. intros n v.
  assert (D : validate n exO (heap (p_st p)) 3 v = OutOfFuel /\ validate n exO (heap (p_st p)) 8 v = OutOfFuel
     /\ validate n exO (heap (p_st p)) 18 v = OutOfFuel).
  { induction n as [|n (A & B & C)]; [repeat split|]. rewrite !Validate_proofs.validate_S.
    rewrite G3, G8, G18, S3, S8, S18. cbn [Validate_proofs.scalar_validate]. rewrite Sl. cbn [union_validate]. rewrite B, C. auto. }
  exact (proj1 D).
Qed.
Print Assumptions C12_document_refuted.

(** * C36 *)

(** [A: {x: string, next?: A}], [B: {next?: B}], [Root: {a?: A, b?: B}]: the
    schema of Root refuses [{"b": {"next": {}}}], which is a Root. *)
Definition decls36 : list (string * ynode) :=
  [("A", mp [properties_of [("x", sc "string"); ("next?", sc "A")]]); ("B", mp [properties_of [("next?", sc "B")]]);
   ("Root", mp [properties_of [("a?", sc "A"); ("b?", sc "B")]])].
Theorem C36_document_refuted : exists p a S0, gives decls36 p /\ type_in p "Root" = Some a
  /\ convert 20 true (env (heap (p_st p))) a = Ok S0 /\ json_value v36
  /\ verdict p "Root" v36 = Ok tt /\ ~ satisfies exO exF (definitions S0) S0 v36.
Proof.
  assert (W : exists p a S0 root t u next, gives decls36 p /\ type_in p "Root" = Some a
    /\ convert 20 true (env (heap (p_st p))) a = Ok S0 /\ verdict p "Root" v36 = Ok tt
    /\ k_ref (keywords S0) = "#/definitions/Root" /\ oget "Root" (definitions S0) = Some root
    /\ k_ref (keywords root) = ""
    /\ oget "b" (entries (properties root)) = Some u /\ k_ref (keywords u) = "" /\ oget "next" (entries (properties u)) = Some t
    /\ match t with Null => false | _ => true end = true
    /\ k_ref (keywords t) = "#/definitions/next?" /\ oget "next?" (definitions S0) = Some next
    /\ k_ref (keywords next) = "" /\ k_required (keywords next) = ["x"]).
  { do 7 eexists. repeat (split; [vm_compute; reflexivity|]). vm_compute. reflexivity. }
  destruct W as (p & a & S0 & root & t & u & next & G & T & C & V & R0 & G0 & R1 & Gu & Ru & Gt & Nt & Rt & Gn & Rn & Q).
  exists p, a, S0. split; [exact G|]. split; [exact T|]. split; [exact C|].
  assert (Jv : forall k x, json_value x -> json_value (GMap [(k, x)])).
  { intros k x H. apply jv_map; [repeat constructor; simpl; tauto|]. intros k' x' [E|[]]. now injection E as <- <-. }
  split; [apply Jv, Jv, jv_map; [constructor|intros ? ? []]|]. split; [exact V|].
  intros H. refine (_ (proj1 (sat_ref (definitions S0) S0 "Root" root v36 _ R0 G0) H)); [|intros ->; discriminate]. clear H. intros H.
  eapply sat_prop in H; [|exact R1|left; reflexivity|exact Gu].
  eapply sat_prop in H; [|exact Ru|left; reflexivity|exact Gt].
  refine (_ (proj1 (sat_ref (definitions S0) t "next?" next _ _ Rt Gn) H)); [|intros ->; discriminate]. clear H. intros H.
  eapply sat_required in H; [|exact Rn|rewrite Q; left; reflexivity]. destruct H as (x & []).
Qed.
Print Assumptions C36_document_refuted.

(** * C41, C24 *)

(** [Q: {a: string(0..3)}], [R: {a: string(5..9)}], [O: {x: Q | R}],
    [D: {type: O, x: {a: string}}]: the property x of D becomes a union of two
    copies, whose properties a have the same ID. *)
Definition decl_q (name lo hi : string) : string * ynode := (name, mp [properties_of [("a", snd (decl_s "" lo hi))]]).
Definition decls41 : list (string * ynode) :=
  [decl_q "Q" "0" "3"; decl_q "R" "5" "9"; ("O", mp [properties_of [("x", sc "Q | R")]]);
   ("D", mp [("type", sc "O"); properties_of [("x", mp [properties_of [("a", sc "string")]])]])].
Definition a_of (x : string) : gval := x_of (GMap [("a", GStr x)]).

Theorem C41_document_refuted : exists p x y bx by_, gives decls41 p
  /\ get_base (heap (p_st p)) x = Some bx /\ get_base (heap (p_st p)) y = Some by_ /\ b_id bx = b_id by_ /\ x <> y
  /\ (exists d m l u mu lu o1 o2 f1 f2,
        type_in p "D" = Some d /\ Spec_Validate.shape_at (heap (p_st p)) d (SObject (ObjF None None None (Some m) None None None))
        /\ get_props (heap (p_st p)) m = Some [("x", Prop_ "x" u true)] /\ l = [o1; o2]
        /\ Spec_Validate.shape_at (heap (p_st p)) u (SUnion lu mu) /\ get_slice (heap (p_st p)) lu = Some l
        /\ Spec_Validate.shape_at (heap (p_st p)) o1 (SObject (ObjF None None None (Some f1) None None None))
        /\ get_props (heap (p_st p)) f1 = Some [("a", Prop_ "a" x true)]
        /\ Spec_Validate.shape_at (heap (p_st p)) o2 (SObject (ObjF None None None (Some f2) None None None))
        /\ get_props (heap (p_st p)) f2 = Some [("a", Prop_ "a" y true)]).
Proof.
  eexists. exists 52, 61. do 2 eexists. split; [vm_compute; reflexivity|]. split; [vm_compute; reflexivity|].
  split; [vm_compute; reflexivity|]. split; [reflexivity|]. split; [discriminate|].
  do 10 eexists. split; [vm_compute; reflexivity|]. split; [eexists; split; vm_compute; reflexivity|].
  split; [vm_compute; reflexivity|]. split; [reflexivity|]. split; [eexists; split; vm_compute; reflexivity|].
  split; [vm_compute; reflexivity|]. split; [eexists; split; vm_compute; reflexivity|].
  split; [vm_compute; reflexivity|]. split; [eexists; split; vm_compute; reflexivity|]. vm_compute. reflexivity.
Qed.
Print Assumptions C41_document_refuted.

(** CloneDetached of D, which goes by ID, then merges the two, and the copy
    refuses a value of D. *)
Theorem C24_document_refuted : exists p d c s', gives decls41 p /\ type_in p "D" = Some d
  /\ clone_detached 20 d (p_st p) = (Ok c, s')
  /\ map (verdict p "D") [a_of "ab"; a_of "abcd"; a_of "abcdef"] = [Ok tt; Err; Ok tt]
  /\ map (validate 12 exO (heap s') c) [a_of "ab"; a_of "abcd"; a_of "abcdef"] = [Ok tt; Err; Err].
Proof. do 3 eexists. shown. Qed.
Print Assumptions C24_document_refuted.

(** * C32, C77 *)

(** Parsing with validation, unwrapping or not. *)
Definition checked (u : bool) (ts : list (string * ynode)) : res entry_point :=
  fst (parse_string (typed (library_of ts)) 40 exO ["a.raml"] ["a.raml"] ["a.raml"] u true
         (lib_head ++ "a.raml")%string "a.raml").
Definition taken (ts : list (string * ynode)) : Prop := checked true ts = Ok (ELib 0) /\ checked false ts = Ok (ELib 0).
Definition refused (ts : list (string * ynode)) : Prop := checked true ts = Err /\ checked false ts = Err.

(** [P: object] and [Q: {facets: {unit: string}}]. *)
Definition decl32 (l : list string) (fs : list (string * ynode)) : list (string * ynode) :=
  [("P", mp [("type", sc "object")]); ("Q", mp [("type", sc "object"); ("facets", mp [("unit", sc "string")])]);
   ("T", mp (("type", sq (map sc l)) :: fs))].

(** With the parents [Q; P] a unit is asked for, and has to be a string. With
    the parents [P; Q] none is asked for, and giving one is an error. *)
Theorem C32_document_refuted :
  refused (decl32 ["Q"; "P"] []) /\ taken (decl32 ["Q"; "P"] [("unit", sc "m")])
  /\ refused (decl32 ["Q"; "P"] [("unit", int "4")])
  /\ taken (decl32 ["P"; "Q"] []) /\ refused (decl32 ["P"; "Q"] [("unit", sc "m")]).
Proof. repeat split; vm_compute; reflexivity. Qed.
Print Assumptions C32_document_refuted.

(** What holds after every parse with validation, for each part of each declared
    type: every custom facet given is one that an ancestor (by first parents)
    defines, and for each name an ancestor defines there is a definition that
    the value given, if any, conforms to. *)
Theorem C32_parsed_partial : forall E n O o1 o2 o3 text path ep p,
  parse_string E n O o1 o2 o3 false true text path = (Ok ep, p) ->
  forall loc a, In loc o3 -> declared_in (raml_of p) loc a ->
  exists si us sj, unwrapped_copy n a si us sj
    /\ forall d b, Spec_Validate.part_of (heap sj) us d -> get_base (heap sj) d = Some b ->
       (forall k v, gives_facet (heap sj) b k v ->
          exists c f, ancestor (heap sj) b c /\ defines_facet (heap sj) c f /\ p_name f = k)
       /\ (forall c f, ancestor (heap sj) b c -> defines_facet (heap sj) c f ->
          exists c' f', ancestor (heap sj) b c' /\ defines_facet (heap sj) c' f' /\ p_name f' = p_name f
            /\ (p_req f' = true -> exists v, gives_facet (heap sj) b (p_name f) v)
            /\ (forall v, gives_facet (heap sj) b (p_name f) v -> Validate_proofs.returns_nil O (heap sj) (p_base f') v)).
Proof.
  intros E n O o1 o2 o3 text path ep p H loc a J D.
  destruct (C31_parsed _ _ _ _ _ _ _ _ _ _ H loc a J D) as (si & us & sj & U & _ & C & _).
  exists si, us, sj. split; [exact U|]. intros d b P G.
  destruct (Check_proofs.commons_parts n O (heap sj) us d P C (Check_proofs.commons_base _ _ _ _ C) b G) as [m Cm].
  destruct (Check_proofs.commons_local m O (heap sj) d b G Cm) as (F & _).
  destruct (Check_proofs.facets_local _ _ _ _ F) as (_ & L2 & L3). split; [exact L2|].
  intros c f A Df. destruct (L3 c f A Df) as (c' & f' & A' & D' & Q & R & V).
  exists c', f'. split; [exact A'|]. split; [exact D'|]. split; [exact Q|]. split; [exact R|].
  intros v Gv. exists m. exact (V v Gv).
Qed.
Print Assumptions C32_parsed_partial.

(** An undefined facet of a string type is reported. One of a union is not; and
    [properties] that is a number or a sequence, [facets] that is a string, and
    a property declared twice are all accepted. *)
Definition t77 (l : list (string * ynode)) : list (string * ynode) := [("T", mp l)].
Theorem C77_document_refuted :
  refused (t77 [("type", sc "string"); ("nonsense", sc "x")])
  /\ taken (t77 [("type", sc "string | integer"); ("nonsense", sc "x")])
  /\ taken (t77 [("type", sc "(string)"); ("minimum", int "4")])
  /\ taken (t77 [("type", sc "object"); ("properties", int "4")])
  /\ taken (t77 [("type", sc "object"); ("properties", sq [sc "a"; sc "string"])])
  /\ taken (t77 [("type", sc "string"); ("facets", sc "x")])
  /\ taken (t77 [properties_of [("a", sc "string"); ("a?", sc "integer")]]).
Proof. repeat split; vm_compute; reflexivity. Qed.
Print Assumptions C77_document_refuted.

(** What holds: whatever is written in the declaration of a type, other than of a
    union or a JSON schema, and is neither documentation nor a facet of the kind
    is kept as a custom facet with its value (which validation then checks,
    C32_parsed_partial). *)
Theorem C77_kept_partial : forall E n O o1 o2 o3 vl path0 text ep p path l lib doc T v k nd,
  parse_string E n O o1 o2 o3 false vl text path0 = (Ok ep, p) ->
  oget path (p_frags p) = Some (FLib l) -> nth_error (p_libs p) l = Some lib ->
  (forall text', (path = path0 /\ text' = text) \/ e_read (d_y E) path = Some text' -> document E text' = Ok (Some doc)) ->
  last_of T (declarations_in "types" doc) = Some v -> ~ wrapped_name v -> last_of k (own_facets v) = Some nd ->
  exists x b sh, oget T (l_types lib) = Some x /\ get_base (heap (p_st p)) x = Some b /\ b_shape b = Some sh
    /\ ((forall sl e, sh <> SUnion sl e) -> (forall r, sh <> SJSON r) -> (forall hd, sh <> SRec hd) -> ~ In k (facet_names sh) ->
        exists d, gives_facet (heap (p_st p)) b k d /\ value_of E path nd d).
Proof.
  intros E n O o1 o2 o3 vl path0 text ep p path l lib doc T v k nd H Fr Lb Doc Lv W Lk.
  assert (Fs : exists text', ((path = path0 /\ text' = text) \/ e_read (d_y E) path = Some text') /\ fragment_says E p path text' (FLib l)).
  { destruct vl; [eapply Props_Decode.C62_validated|eapply Props_Decode.C62_as_written]; eauto. }
  destruct Fs as (text' & Tx & doc' & lib' & D' & Lb' & Ty & _).
  rewrite (Doc _ Tx) in D'. injection D' as <-. rewrite Lb in Lb'. injection Lb' as <-.
  destruct (Props_Decode.filled_last (fun k nd s x => stated E p nd k path x) _ _ _ _ Ty Lv) as (x & Gx & R & Rx & HR).
  destruct (HR _ _ _ _ Rx) as (b & Gb & _ & _ & S & _). destruct (S W) as (_ & sh & Hs & Nu & _ & _ & (m & Gm & Cm) & _).
  exists x, b, sh. repeat (split; auto). intros N1 N2 N3 N4.
  assert (C : custom_of sh (own_facets v) = filter (fun kv => negb (existsb (String.eqb (fst kv)) (facet_names sh))) (own_facets v)).
  { destruct sh; try reflexivity; exfalso; eauto; congruence. }
  assert (Nk : existsb (String.eqb k) (facet_names sh) = false).
  { destruct (existsb (String.eqb k) (facet_names sh)) eqn:X; auto. apply existsb_exists in X. destruct X as (y & Iy & Qy).
    apply String.eqb_eq in Qy. subst y. contradiction. }
  specialize (Cm k). rewrite C in Cm. rewrite (Props_Decode.last_of_filter k _ _ nd) in Cm; auto.
  - destruct Cm as (d & G & V). exists d. split; auto. exists m. split; auto.
  - intros v0. cbn [fst]. now rewrite Nk.
Qed.
Print Assumptions C77_kept_partial.

(** So a declaration that names its kind (or leaves it out) and holds anything that
    is neither documentation nor a facet of the kind is reported: after a parse with
    validation there is none, JSON schemas and unions aside. *)
Theorem C77_reported_partial : forall E n O o1 o2 o3 path0 text ep p path l lib doc T v k nd,
  parse_string E n O o1 o2 o3 false true text path0 = (Ok ep, p) -> In path o3 ->
  oget path (p_frags p) = Some (FLib l) -> nth_error (p_libs p) l = Some lib ->
  (forall text', (path = path0 /\ text' = text) \/ e_read (d_y E) path = Some text' -> document E text' = Ok (Some doc)) ->
  last_of T (declarations_in "types" doc) = Some v -> by_itself v -> ~ wrapped_name v -> last_of k (own_facets v) = Some nd ->
  exists x b sh, oget T (l_types lib) = Some x /\ get_base (heap (p_st p)) x = Some b /\ b_shape b = Some sh
    /\ (In k (facet_names sh) \/ (exists r, sh = SJSON r) \/ (exists sl e, sh = SUnion sl e)).
Proof.
  intros E n O o1 o2 o3 path0 text ep p path l lib doc T v k nd H Ip Fr Lb Doc Lv By W Lk.
  destruct (Parse_fresh.parse_validated _ _ _ _ _ _ _ _ _ _ H) as (p0 & H0 & _ & V & R & _).
  destruct (Props_Fresh.C61_complete _ _ _ _ _ _ _ _ _ _ H0) as (F & _ & Dc & _). pose proof F as (Wf & Iu & _ & Fl).
  assert (Rf : p_frags p = p_frags p0) by exact (f_equal r_frags R).
  assert (Rl : p_libs p = p_libs p0) by exact (f_equal r_libs R).
  rewrite Rf in Fr. rewrite Rl in Lb.
  destruct (Props_Decode.C62_as_written _ _ _ _ _ _ _ _ _ _ H0 _ _ Fr) as (text' & Tx & doc' & lib' & D' & Lb' & Ty & _).
  rewrite (Doc _ Tx) in D'. injection D' as <-. rewrite Lb in Lb'. injection Lb' as <-.
  destruct (Props_Decode.filled_last (fun k nd s x => stated E p0 nd k path x) _ _ _ _ Ty Lv) as (x & Gx & Rr & Rx & HR).
  destruct (HR _ _ _ _ Rx) as (b & Gb & _ & Pa & S & _). destruct (S W) as (_ & sh & Hs & Nu & _ & _ & (m & Gm & Cm) & _).
  destruct (proj2 Pa By) as (Al & Li & In0).
  assert (Di : declared_in (raml_of p0) path x).
  { eapply di_type; [exact Fr|exact Lb|exact (Validate_proofs.oget_in _ _ _ Gx)]. }
  destruct (Props_Pipeline.C31_every_type n O o3 _ _ _ Wf Iu (Props_Fresh.fresh_no_rec _ F) Dc V path x Ip Di)
    as (b1 & us & sj & G1 & U & (xs & Xs) & (ys & Ys) & _ & Co & _).
  rewrite Gb in G1. injection G1 as <-. destruct (Fl x b Gb) as (_ & Un & Nr).
  exists x, b, sh. split; [exact Gx|].
  assert (Gp : get_base (heap (p_st p)) x = Some b).
  { rewrite Ys, Xs. apply Heap_lemmas.get_base_nth in Gb. apply Heap_lemmas.get_base_nth. rewrite !nth_error_app1; auto; rewrite ?app_length; assert (x < List.length (heap (p_st p0))) by (apply nth_error_Some; congruence); lia. }
  split; [exact Gp|]. split; [exact Hs|].
  destruct (in_dec string_dec k (facet_names sh)) as [Ik|Nk]; [now left|]. right.
  assert (D : custom_of sh (own_facets v) = filter (fun kv => negb (existsb (String.eqb (fst kv)) (facet_names sh))) (own_facets v)
    \/ (exists r, sh = SJSON r) \/ (exists sl e, sh = SUnion sl e)).
  { destruct sh; eauto; exfalso; [congruence|exact (Nr _ Hs)]. }
  destruct D as [C|D]; [exfalso|exact D].
  assert (Xk : existsb (String.eqb k) (facet_names sh) = false).
  { destruct (existsb (String.eqb k) (facet_names sh)) eqn:X; auto. apply existsb_exists in X. destruct X as (y & Iy & Qy).
    apply String.eqb_eq in Qy. subst y. contradiction. }
  specialize (Cm k). rewrite C in Cm. rewrite (Props_Decode.last_of_filter k _ _ nd) in Cm; auto; [|intros v0; cbn [fst]; now rewrite Xk].
  destruct Cm as (d & Gd & _).
  destruct U as [[U _]|(_ & si & (zs & Zs) & U)]; [congruence|].
  assert (Up : forall z c, nth_error (heap (p_st p0)) z = Some c -> nth_error (heap si) z = Some c).
  { intros z c N. rewrite Zs, nth_error_app1; auto. apply nth_error_Some. congruence. }
  destruct (Keep_facets.alone_copy n x si us sj b m U) as (b' & m' & Gb' & Gi' & Gf' & Hm'); auto.
  { apply Heap_lemmas.get_base_nth. apply Up. now apply Heap_lemmas.get_base_nth. }
  { apply Heap_lemmas.get_slice_nth. apply Up. now apply Heap_lemmas.get_slice_nth. }
  { apply Heap_lemmas.get_facets_nth. apply Up. now apply Heap_lemmas.get_facets_nth. }
  destruct n as [|n0]; [discriminate|].
  destruct (Check_proofs.commons_local n0 O (heap sj) us b' Gb' Co) as (Fc & _).
  destruct (Check_proofs.facets_local _ _ _ _ Fc) as (_ & L2 & _).
  destruct (oget k m') as [w|] eqn:Ew; [|apply (Hm' k); congruence].
  destruct (L2 k w) as (c & _ & A & _); [exists m'; auto|].
  assert (Np : forall c, ~ parent (heap sj) b' c) by (intros c0 (q & r & A1 & _); congruence).
  destruct A as [? ? A|? ? ? A _]; exact (Np _ A).
Qed.
Print Assumptions C77_reported_partial.

(** A string with a least length, and the same with one facet too many. *)
Example C77_reported_case :
  let v := mp [("type", sc "string"); ("minLength", int "2")] in
  let d := library_of [("T", v)] in
  (exists p lib doc, parse_string (typed d) 40 exO ["a.raml"] ["a.raml"] ["a.raml"] false true (lib_head ++ "a.raml")%string "a.raml" = (Ok (ELib 0), p)
     /\ oget "a.raml" (p_frags p) = Some (FLib 0) /\ nth_error (p_libs p) 0 = Some lib
     /\ document (typed d) (lib_head ++ "a.raml")%string = Ok (Some doc) /\ last_of "T" (declarations_in "types" doc) = Some v)
  /\ by_itself v /\ ~ wrapped_name v /\ last_of "minLength" (own_facets v) = Some (int "2")
  /\ refused (t77 [("type", sc "string"); ("minLength", int "2"); ("minimum", int "2")]).
Proof.
  cbv zeta. split; [|split; [|split; [|split]]].
  - do 3 eexists. repeat (split; [vm_compute; reflexivity|]). vm_compute. reflexivity.
  - split; [reflexivity|]. right. split; [reflexivity|]. right. right. reflexivity.
  - intros (_ & t & e & (y & Ty & _ & _ & Vy) & Bt & _). injection Ty as <-. cbn in Vy. subst t. discriminate.
  - reflexivity.
  - split; vm_compute; reflexivity.
Qed.

Example C77_case :
  exists p x b, parse_string (typed (library_of (t77 [("type", sc "string"); ("nonsense", sc "x")]))) 40 exO ["a.raml"] ["a.raml"] ["a.raml"]
      false false (lib_head ++ "a.raml")%string "a.raml" = (Ok (ELib 0), p)
    /\ type_in p "T" = Some x /\ get_base (heap (p_st p)) x = Some b
    /\ get_facets (heap (p_st p)) (b_facets b) = Some [("nonsense", GStr "x")].
Proof. do 3 eexists. repeat (split; [vm_compute; reflexivity|]). vm_compute. reflexivity. Qed.
