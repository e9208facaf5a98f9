(** What a successful parse makes of the declarations (C62). *)
From Coq Require Import ZArith List String Bool Lia.
From Verif Require Import Base Scalars Heap Heap_lemmas Rdt Names Spec_Names Yaml Spec_Yaml Validate Spec_Validate Spec_Model Spec_Resolve
  Model_check Validate_proofs Pipeline Decode Parse Spec_Parse Spec_Decode Decode_settle Props_Validate Props_Parse Props_Fresh.
From Verif Require Pipeline_proofs Resolve_proofs.
Import ListNotations.
Open Scope string_scope.
Open Scope list_scope.
Open Scope nat_scope.

(** * C62 *)

(** Every fragment in the cache is what the text of its file says: the types and
    annotation types of a library are those that are written, under their names,
    and the type of a data type file is the one that is written; a type has the
    documentation, the annotations, the defaults and the examples, the facet
    definitions, the facets of its kind, the custom facets, the properties, the
    items, the list of parents and the types of its expression that its
    declaration says, and the types below likewise. *)
Theorem C62_as_written : forall E n O o1 o2 o3 text path0 ep p,
  parse_string E n O o1 o2 o3 false false text path0 = (Ok ep, p) ->
  forall path f, oget path (p_frags p) = Some f ->
  exists text', ((path = path0 /\ text' = text) \/ e_read (d_y E) path = Some text') /\ fragment_says E p path text' f.
Proof. exact parse_as_written. Qed.
Print Assumptions C62_as_written.

(** ** After validation *)

Section Later.
Variable E : denv.
Variables p p' : pst.
Hypothesis Hh : forall z, z < List.length (heap (p_st p)) -> nth_error (heap (p_st p')) z = nth_error (heap (p_st p)) z.
Hypothesis He : p_exts p' = p_exts p.
Hypothesis Hl : p_libs p' = p_libs p.
Hypothesis Hf : p_frags p' = p_frags p.

Lemma later_get x c : nth_error (heap (p_st p)) x = Some c -> nth_error (heap (p_st p')) x = Some c.
Proof. intros H. rewrite Hh; auto. apply nth_error_Some. congruence. Qed.
Lemma later_base x b : get_base (heap (p_st p)) x = Some b -> get_base (heap (p_st p')) x = Some b.
Proof. intros H. apply get_base_nth in H. apply get_base_nth. now apply later_get. Qed.
Lemma later_props x m : get_props (heap (p_st p)) x = Some m -> get_props (heap (p_st p')) x = Some m.
Proof. unfold get_props. intros H. destruct (nth_error (heap (p_st p)) x) eqn:G; [|discriminate]. now rewrite (later_get _ _ G). Qed.
Lemma later_facets x m : get_facets (heap (p_st p)) x = Some m -> get_facets (heap (p_st p')) x = Some m.
Proof. unfold get_facets. intros H. destruct (nth_error (heap (p_st p)) x) eqn:G; [|discriminate]. now rewrite (later_get _ _ G). Qed.
Lemma later_slice x m : get_slice (heap (p_st p)) x = Some m -> get_slice (heap (p_st p')) x = Some m.
Proof. unfold get_slice. intros H. destruct (nth_error (heap (p_st p)) x) eqn:G; [|discriminate]. now rewrite (later_get _ _ G). Qed.

Lemma filled_mono {A} (R R' : string -> ynode -> string -> A -> Prop) l m :
  (forall k n s x, R k n s x -> R' k n s x) -> filled R l m -> filled R' l m.
Proof. intros M F. induction F; [constructor|]. constructor; auto. Qed.

Lemma later_refers loc name r : refers p loc name r -> refers p' loc name r.
Proof. unfold refers. now rewrite Hf, Hl. Qed.
Lemma later_kind x t : of_kind p x t -> of_kind p' x t.
Proof. intros (b & G & T). exists b. split; auto. now apply later_base. Qed.
Lemma later_leads loc : (forall e pl x, leads p loc e pl x -> leads p' loc e pl x)
  /\ (forall t pl x, leads_typ p loc t pl x -> leads_typ p' loc t pl x)
  /\ (forall at_ pl x, leads_atom p loc at_ pl x -> leads_atom p' loc at_ pl x).
Proof.
  apply (Resolve_proofs.trees_all (fun e => forall pl x, leads p loc e pl x -> leads p' loc e pl x)
    (fun t => forall pl x, leads_typ p loc t pl x -> leads_typ p' loc t pl x)
    (fun at_ => forall pl x, leads_atom p loc at_ pl x -> leads_atom p' loc at_ pl x)).
  - intros t Q. exact Q.
  - intros t1 t2 ts Q1 Q2 Qs pl x. rewrite !leads_union. intros (b & sl & en & y1 & y2 & ys & G & S & Gl & L1 & L2 & Ls).
    exists b, sl, en, y1, y2, ys. split; [now apply later_base|]. split; auto. split; [now apply later_slice|]. split; auto. split; auto.
    rewrite Forall_forall in Qs. eapply pairwise_weak; [|exact Ls]. cbn beta. intros t y I. now apply Qs.
  - intros at_ Q. exact Q.
  - intros at_ Q pl x (b & f & i & G & S & Ai & Li). exists b, f, i. split; [now apply later_base|]. repeat (split; auto).
  - intros at_ Q pl x (b & sl & en & y & n & G & S & Gl & Ly & Kn). exists b, sl, en, y, n.
    split; [now apply later_base|]. split; auto. split; [now apply later_slice|]. split; [now apply Q|now apply later_kind].
  - intros t pl x K. now apply later_kind.
  - intros e Q. exact Q.
  - intros s o pl x (r & b & R & G & K & C). exists r, b. split; [now apply later_refers|]. split; [now apply later_base|]. split; [now apply later_kind|].
    destruct pl; auto. destruct C as (l & Gl & C). exists l. split; auto. now apply later_slice.
Qed.

Lemma later_dt l o : get_dt (heap (p_st p)) l = Some o -> get_dt (heap (p_st p')) l = Some o.
Proof. unfold get_dt. intros H. destruct (nth_error (heap (p_st p)) l) eqn:G; [|discriminate]. now rewrite (later_get _ _ G). Qed.
Lemma later_routed v loc x b : routed E p v loc x b -> routed E p' v loc x b.
Proof.
  intros R t T. destruct (R t T) as (A & B & C). split; [|split].
  - intros e Ex Nc. apply (proj1 (later_leads loc)). auto.
  - intros K Q. destruct (B K Q) as (l & y & Lk & D & Ky & yb & Gy & Q'). exists l, y. split; auto. split; [now apply later_dt|]. split; [now apply later_kind|].
    exists yb. split; auto. now apply later_base.
  - intros K. destruct (C K) as (y & l & G & Ky). exists y, l. split; [now apply later_slice|now apply later_kind].
Qed.

Lemma later_written R v name loc x : as_written E p R v name loc x -> as_written E p' R v name loc x.
Proof.
  intros (b & G & D & P & S & Ro). exists b. split; [now apply later_base|]. split; [|split; [|split; [|now apply later_routed]]].
  - destruct D. constructor; auto.
    + revert dc_domain. apply filled_mono. intros k nd s i (Q & j & e & X). split; auto. exists j, e. rewrite He. exact X.
    + destruct dc_fdefs as (m & Gm & F). exists m. split; [now apply later_props|]. revert F. apply filled_mono.
      intros k nd s pr (Q & Rn & xb & Gx & N). split; auto. split; auto. exists xb. split; auto. now apply later_base.
  - destruct P as [P B]. split; [|intros Y; destruct (B Y) as (B1 & B2 & B3); split; auto; split; auto; now apply later_slice].
    intros t T K. destruct (P t T K) as (l & Gl & F). exists l. split; auto. now apply later_slice.
  - intros W. destruct (S W) as (K & sh & Hs & U & T & F & (m & Gm & C) & Rest). split; auto. exists sh. split; auto. split; auto. split; auto.
    split; auto. split; [exists m; split; auto; now apply later_facets|].
    destruct sh; auto. destruct Rest as (P1 & P2).
    assert (Mv : forall (Q Q' : string -> ynode -> string -> prop -> Prop) l o,
      (forall k nd s q, Q k nd s q -> Q' k nd s q) -> property_map p Q l o -> property_map p' Q' l o).
    { intros Q Q' l o M Pm. destruct o as [a|]; auto. destruct Pm as (Ne & mm & Ga & Fl). split; auto. exists mm. split; [now apply later_props|].
      revert Fl. now apply filled_mono. }
    split; [revert P1|revert P2]; apply Mv.
    + intros k nd s q (Q & Rn & xb & Gx & N). split; auto. split; auto. exists xb. split; auto. now apply later_base.
    + intros k nd s q (Rn & xb & Gx & N). split; auto. exists xb. split; auto. now apply later_base.
Qed.
Lemma later_stated v name loc x : stated E p v name loc x -> stated E p' v name loc x.
Proof. intros (R & Rx & H). exists R. split; auto. intros. apply later_written. auto. Qed.
Lemma later_fragment path text f : fragment_says E p path text f -> fragment_says E p' path text f.
Proof.
  destruct f as [l|u o|]; simpl; auto.
  - intros (doc & lib & D & N & T & A). exists doc, lib. rewrite Hl. split; auto. split; auto.
    split; [revert T|revert A]; apply filled_mono; intros k nd s x (Q & S); (split; [exact Q|]); now apply later_stated.
  - intros (doc & v & x & Q & D & K & En & S). exists doc, v, x. repeat split; auto. now apply later_stated.
Qed.
End Later.

(** The same for a parse with validation. *)
Theorem C62_validated : forall E n O o1 o2 o3 text path0 ep p,
  parse_string E n O o1 o2 o3 false true text path0 = (Ok ep, p) ->
  forall path f, oget path (p_frags p) = Some f ->
  exists text', ((path = path0 /\ text' = text) \/ e_read (d_y E) path = Some text') /\ fragment_says E p path text' f.
Proof.
  intros E n O o1 o2 o3 text path0 ep p H path f G.
  destruct (C26_parsed _ _ _ _ _ _ _ _ _ _ H) as (p0 & H0 & R & _ & Hh).
  assert (Fr : p_frags p = p_frags p0) by (change (p_frags p) with (r_frags (raml_of p)); now rewrite R).
  assert (Lb : p_libs p = p_libs p0) by (change (p_libs p) with (r_libs (raml_of p)); now rewrite R).
  assert (Ex : p_exts p = p_exts p0) by (change (p_exts p) with (r_exts (raml_of p)); now rewrite R).
  rewrite Fr in G. destruct (C62_as_written _ _ _ _ _ _ _ _ _ _ H0 path f G) as (t & T & S). exists t. split; auto.
  exact (later_fragment E p0 p Hh Ex Lb Fr path t f S).
Qed.
Print Assumptions C62_validated.

(** ** What it says of one declaration *)

Lemma filled_last {A} (R : string -> ynode -> string -> A -> Prop) l m key v :
  filled (fun k n s x => s = k /\ R k n s x) l m -> last_of key l = Some v -> exists x, oget key m = Some x /\ R key v key x.
Proof.
  intros F. induction F as [|l m k nd s x F IH (Q & Rx)]; [discriminate|]. subst s. intros L.
  assert (La : forall l1, last_of key (l1 ++ [(k, nd)]) = if String.eqb key k then Some nd else last_of key l1).
  { induction l1 as [|(k1 & v1) l1 IH1]; simpl; [destruct (String.eqb key k); auto|]. rewrite IH1. destruct (String.eqb key k); auto. }
  rewrite La in L. destruct (String.eqb key k) eqn:K.
  - injection L as ->. apply String.eqb_eq in K as ->. exists x. split; auto. apply Pipeline_proofs.oget_oset_same.
  - destruct (IH L) as (x1 & G & R1). exists x1. split; auto. rewrite Pipeline_proofs.oget_oset_other; auto.
    apply String.eqb_neq in K. congruence.
Qed.

Lemma last_of_filter k g l nd : (forall v, g (k, v) = true) -> last_of k l = Some nd -> last_of k (filter g l) = Some nd.
Proof.
  intros Hg.
  assert (N : forall l, last_of k l = None -> last_of k (filter g l) = None).
  { induction l0 as [|(k1 & v1) l0 IH]; simpl; auto. destruct (last_of k l0); [discriminate|]. destruct (String.eqb k k1) eqn:K; [discriminate|].
    intros _. destruct (g (k1, v1)); simpl; rewrite ?(IH eq_refl), ?K; auto. }
  induction l as [|(k1 & v1) l IH]; [discriminate|]. cbn [last_of filter].
  destruct (last_of k l) as [z|] eqn:L.
  - intros [= ->]. specialize (IH eq_refl). destruct (g (k1, v1)); cbn [last_of]; now rewrite ?IH.
  - destruct (String.eqb k k1) eqn:K; [|discriminate]. intros [= ->]. apply String.eqb_eq in K as <-. rewrite Hg. cbn [last_of].
    rewrite (N _ L), String.eqb_refl. reflexivity.
Qed.

(** [T: {type: string, minLength: k, …}] in a library: [T] is there and a
    string shorter than [k] is not valid. *)
Theorem C62_min_length : forall E n O o1 o2 o3 path0 text ep p path l lib doc T v t nd k,
  parse_string E n O o1 o2 o3 false false text path0 = (Ok ep, p) ->
  oget path (p_frags p) = Some (FLib l) -> nth_error (p_libs p) l = Some lib ->
  (forall text', (path = path0 /\ text' = text) \/ e_read (d_y E) path = Some text' -> document E text' = Ok (Some doc)) ->
  last_of T (declarations_in "types" doc) = Some v -> y_kind v = KMap ->
  last_of "type" (entries v) = Some t -> y_kind t = KScalar -> y_tag t = "!!str" -> y_value t = "string" ->
  last_of "minLength" (entries v) = Some nd -> d_uint E nd = Some (Some k) ->
  exists x, oget T (l_types lib) = Some x
    /\ forall O' s, valid O' (heap (p_st p)) x (GStr s) -> (k <= Z.of_nat (String.length s))%Z.
Proof.
  intros E n O o1 o2 o3 path0 text ep p path l lib doc T v t nd k H Fr Lb Doc Lv Kv Lt Kt Tt Vt Ln Dn.
  destruct (C62_as_written _ _ _ _ _ _ _ _ _ _ H path _ Fr) as (text' & Tx & doc' & lib' & D' & Lb' & Ty & _).
  rewrite (Doc _ Tx) in D'. injection D' as <-. rewrite Lb in Lb'. injection Lb' as <-.
  destruct (filled_last (fun k nd s x => stated E p nd k path x) _ _ _ _ Ty Lv) as (x & Gx & R & Rx & HR).
  exists x. split; auto. intros O' s V. destruct (HR _ _ _ _ Rx) as (b & Gb & _ & _ & S & _).
  assert (Tn : type_node v = Some t) by (unfold type_node; now rewrite Kv).
  assert (W : ~ wrapped_name v).
  { intros (_ & t1 & e & (n1 & T1 & _ & _ & T2) & B & _). rewrite Tn in T1. injection T1 as <-. rewrite Vt in T2. subst t1. discriminate B. }
  destruct (S W) as (Kr & sh & Hs & _ & Bt & Fc & _). unfold kind_read in Kr. rewrite Tn, Kt in Kr.
  destruct Kr as (_ & Kr). destruct (Kr Tt) as (_ & _ & Kr2). rewrite Vt in Kr2. specialize (Kr2 eq_refl). rewrite Kr2 in Bt.
  destruct sh as [ | |f|f|f|f|f|f| | | |f|f|f g|f| |f]; try discriminate Bt.
  destruct Fc as (Fm & _). unfold field_as in Fm.
  assert (Lo : last_of "minLength" (own_facets v) = Some nd).
  { unfold own_facets. apply last_of_filter; auto. }
  rewrite Lo, Dn in Fm. injection Fm as Fm.
  apply valid_unfold in V. destruct V as (sh & (b' & Gb' & Sh') & Ac). rewrite Gb in Gb'. injection Gb' as <-.
  rewrite Hs in Sh'. injection Sh' as <-. simpl in Ac.
  destruct Ac as (i & Q & Mn & _). injection Q as <-. apply Mn. now rewrite <- Fm.
Qed.
Print Assumptions C62_min_length.

(** A library with a type of most kinds, an annotation, a library in another
    file, a data type file, a list of parents, aliases and expressions. *)
Definition small_number (v : ynode) : option Z :=
  if String.eqb (y_value v) "3" then Some 3%Z else if String.eqb (y_value v) "7" then Some 7%Z else None.
Definition on62 (d : disk) : denv :=
  {| d_y := d_y (on_disk d); d_bool := d_bool (on_disk d); d_text := d_text (on_disk d);
     d_uint := fun v => option_map Some (small_number v); d_float := d_float (on_disk d); d_any := d_any (on_disk d);
     d_string := d_string (on_disk d); d_strict := d_strict (on_disk d);
     d_int := fun x => small_number (sc x); d_re := d_re (on_disk d); d_schema := d_schema (on_disk d); d_base := d_base (on_disk d) |}.
Definition int (x : string) : ynode := Y KScalar "!!int" x [].
Definition d62 : disk :=
  [("a.raml", lib_head,
    mp [("uses", mp [("b", sc "b.raml")]);
        ("annotationTypes", mp [("note", sc "string")]);
        ("types", mp
          [("S", mp [("type", sc "string"); ("minLength", int "3"); ("maxLength", int "7"); ("enum", sq [sc "one"; sc "three"]);
                     ("displayName", sc "A word"); ("description", sc "words"); ("default", sc "one"); ("example", mp [("value", sc "three")]);
                     ("(note)", sc "x"); ("extra", sc "y")]);
           ("O", mp [("properties", mp [("p?", sc "S"); ("/^q/", sc "b.N[]"); ("r", mp [("type", sc "integer"); ("minimum", int "3")])]);
                     ("minProperties", int "3"); ("additionalProperties", sc "true"); ("facets", mp [("unit?", sc "string")])]);
           ("P", mp [("type", sq [sc "O"; sc "b.M"]); ("discriminator", sc "r")]);
           ("L", mp [("type", sc "array"); ("items", mp [("type", sc "S"); ("maxLength", int "3")]); ("minItems", int "3")]);
           ("X", mp [("type", sc "S | nil")]);
           ("I", inc "t.raml")])]);
   ("b.raml", lib_head, mp [("types", mp [("N", sc "number"); ("M", mp [("type", sc "object"); ("properties", mp [("m", sc "N")])])])]);
   ("t.raml", dt_head, mp [("usage", sc "a type"); ("type", sc "file"); ("fileTypes", sq [sc "text"])])].
Definition whole62 (d : disk) (n : nat) (path : string) : res entry_point * pst :=
  let l := map (fun x => fst (fst x)) d in
  match e_read (d_y (on_disk d)) path with
  | Some text => parse_string (on62 d) n exO l l l false false text path
  | None => (Err, new_raml)
  end.
Definition type_at (p : pst) (l : nat) (key : string) : option base :=
  match nth_error (p_libs p) l with Some lib => match oget key (l_types lib) with Some x => get_base (heap (p_st p)) x | None => None end | None => None end.

Definition parents_of (p : pst) (l : nat) (key : string) : option (list addr) :=
  match type_at p l key with Some b => get_slice (heap (p_st p)) (b_inherits b) | None => None end.

Example C62_case : fst (whole62 d62 40 "a.raml") = Ok (ELib 0)
  /\ map fst (p_frags (snd (whole62 d62 40 "a.raml"))) = ["t.raml"; "a.raml"; "b.raml"]
  /\ map (fun k => option_map b_type (type_at (snd (whole62 d62 40 "a.raml")) 0 k)) ["S"; "O"; "P"; "L"; "X"; "I"]
     = [Some "string"; Some "object"; Some "object"; Some "array"; Some "union"; Some "file"]
  /\ option_map b_shape (type_at (snd (whole62 d62 40 "a.raml")) 0 "S")
     = Some (Some (SStr (StrF (Some 3%Z) (Some 7%Z) None (Some [GStr "one"; GStr "three"])))).
Proof.
  split; [vm_compute; reflexivity|]. split; [vm_compute; reflexivity|]. split; vm_compute; reflexivity.
Qed.

(** The case of [C62_min_length]. *)
Example C62_min_length_case : exists x lib, nth_error (p_libs (snd (whole62 d62 40 "a.raml"))) 0 = Some lib /\ oget "S" (l_types lib) = Some x
  /\ forall O s, valid O (heap (p_st (snd (whole62 d62 40 "a.raml")))) x (GStr s) -> (3 <= Z.of_nat (String.length s))%Z.
Proof.
  assert (T : exists lib, nth_error (p_libs (snd (whole62 d62 40 "a.raml"))) 0 = Some lib) by (eexists; vm_compute; reflexivity).
  destruct T as (lib & T).
  destruct (C62_min_length (on62 d62) 40 exO ["a.raml"; "b.raml"; "t.raml"] ["a.raml"; "b.raml"; "t.raml"] ["a.raml"; "b.raml"; "t.raml"]
    "a.raml" (lib_head ++ "a.raml")%string (ELib 0) (snd (whole62 d62 40 "a.raml")) "a.raml" 0 lib (snd (hd ("", "", nl) d62)) "S"
    (mp [("type", sc "string"); ("minLength", int "3"); ("maxLength", int "7"); ("enum", sq [sc "one"; sc "three"]);
         ("displayName", sc "A word"); ("description", sc "words"); ("default", sc "one"); ("example", mp [("value", sc "three")]);
         ("(note)", sc "x"); ("extra", sc "y")])
    (sc "string") (int "3") 3%Z) as (x & G & V).
  4:{ intros text [(_ & ->)|R]; [vm_compute; reflexivity|].
    assert (R' : e_read (d_y (on62 d62)) "a.raml" = Some (lib_head ++ "a.raml")%string) by (vm_compute; reflexivity).
    rewrite R' in R. injection R as <-. vm_compute. reflexivity. }
  2: vm_compute; reflexivity.
  2: exact T.
  10: { exists x, lib. auto. }
  all: vm_compute; reflexivity.
Qed.

(** ** A parent that is named once may be there twice *)

(** [A: {type: B, note: x}], [B: A | string]: while [A] is made, [B] is, and
    while [B] is made, [A] is. *)
Definition d62b (t : string) : disk :=
  [("a.raml", lib_head, mp [("types", mp [("A", mp [("type", sc "B"); ("note", sc "x")]); ("B", sc t)])])].
Definition loads (d : disk) (p : pst) : Prop := exists n l text path ep, parse_string (on62 d) n exO l l l false false text path = (Ok ep, p).
Lemma whole62_loads d n path ep : fst (whole62 d n path) = Ok ep -> loads d (snd (whole62 d n path)).
Proof.
  unfold whole62. destruct (e_read (d_y (on_disk d)) path) as [text|]; [|discriminate]. intros H.
  exists n, (map (fun x => fst (fst x)) d), text, path, ep. rewrite <- H. now destruct (parse_string _ _ _ _ _ _ _ _ _ _).
Qed.
Theorem C62_one_parent_refuted : forall t, t = "A | string" \/ t = "A[]" ->
  exists p y, loads (d62b t) p /\ parents_of p 0 "A" = Some [y; y].
Proof.
  intros t H. exists (snd (whole62 (d62b t) 40 "a.raml")), 7. split.
  - apply (whole62_loads _ _ _ (ELib 0)). destruct H; subst t; vm_compute; reflexivity.
  - destruct H; subst t; vm_compute; reflexivity.
Qed.
Print Assumptions C62_one_parent_refuted.
