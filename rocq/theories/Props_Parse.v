(** Loading of files: the theorems (C44-C46) and concrete cases. *)
From Coq Require Import ZArith List String Bool Lia.
From Verif Require Import Base Scalars Heap Names Yaml Spec_Yaml Pipeline Decode Parse Spec_Parse Parse_ends Parse_once.
Import ListNotations.
Open Scope string_scope.
Open Scope list_scope.
Open Scope nat_scope.

(** * C44, C45: loading ends *)

(** Reading a document and all the files it uses or includes ends, however the
    [uses] of the libraries and data types run in circles, when finitely many
    files can be read and no file includes itself: one bound serves every
    document. *)
Theorem C44_ends : forall E,
  finite_files E -> no_include_cycle E ->
  exists n, forall m text path p, n <= m -> ended (decode_fragment E m text path p).
Proof. exact decode_fragment_ends. Qed.
Print Assumptions C44_ends.

(** * Concrete files *)

(** The scalar [x], the mapping, the sequence and the include of a file. *)
Definition sc (x : string) : ynode := Y KScalar "!!str" x [].
Definition mp (l : list (string * ynode)) : ynode := Y KMap "!!map" "" (flat_map (fun kv => [sc (fst kv); snd kv]) l).
Definition sq (l : list ynode) : ynode := Y KSeq "!!seq" "" l.
Definition inc (x : string) : ynode := Y KScalar "!include" x [].
Definition nl : ynode := Y KScalar "!!null" "~" [].

(** The first line of a file. *)
Definition newline : string := String (Ascii.ascii_of_nat 10) "".
Definition lib_head : string := ("#%RAML 1.0 Library" ++ newline)%string.
Definition dt_head : string := ("#%RAML 1.0 DataType" ++ newline)%string.

(** Files in one directory: name, first line, tree. The rest of the text is the
    name of the file, which makes texts different. *)
Definition disk := list (string * string * ynode).
Fixpoint find_file (f : string * string * ynode -> bool) (d : disk) : option (string * string * ynode) :=
  match d with [] => None | x :: d' => if f x then Some x else find_file f d' end.
Definition text_of (x : string * string * ynode) : string := (snd (fst x) ++ fst (fst x))%string.
Definition on_disk (d : disk) : denv :=
  {| d_y := {| e_scalar := fun _ v => Some (GStr v);
               e_join := fun _ v => v;
               e_ext := fun _ => ".raml";
               e_read := fun path => option_map text_of (find_file (fun x => String.eqb (fst (fst x)) path) d);
               e_yaml := fun text => option_map (fun x => Y KDoc "" "" [snd x]) (find_file (fun x => String.eqb (text_of x) text) d);
               e_json := fun _ => None |};
     d_bool := fun v => Some (if String.eqb (y_value v) "true" then Some true else Some false);
     d_text := fun v => Some (Some (y_value v));
     d_uint := fun _ => None;
     d_float := fun _ => None;
     d_any := fun _ => None;
     d_string := fun _ => true;
     d_strict := fun _ => true;
     d_int := fun _ => None;
     d_re := fun _ => true;
     d_schema := fun _ => true;
     d_base := fun x => x |}.

Lemma on_disk_finite d : finite_files (on_disk d).
Proof.
  exists (map (fun x => fst (fst x)) d). intros path R. simpl in R. apply in_map_iff.
  induction d as [|x d IH]; simpl in R; [congruence|].
  destruct (String.eqb (fst (fst x)) path) eqn:K.
  - apply String.eqb_eq in K. exists x. split; [exact K|now left].
  - destruct (IH R) as (y & Y1 & Y2). exists y. split; [exact Y1|now right].
Qed.

(** The first line and the text of a file that is not [.json]. *)
Definition load (d : disk) (n : nat) (path : string) : res entry_point * pst :=
  match e_read (d_y (on_disk d)) path with
  | Some text => decode_fragment (on_disk d) n text path new_raml
  | None => (Err, new_raml)
  end.

(** Two libraries that use each other, a type of one is included from a file:
<<
    a.raml: uses: {b: b.raml}, types: {T: !include t.raml}
    b.raml: uses: {a: a.raml}, types: {S: string}
    t.raml: type: object
>> *)
Definition d44 : disk :=
  [("a.raml", lib_head, mp [("uses", mp [("b", sc "b.raml")]); ("types", mp [("T", inc "t.raml")])]);
   ("b.raml", lib_head, mp [("uses", mp [("a", sc "a.raml")]); ("types", mp [("S", sc "string")])]);
   ("t.raml", dt_head, mp [("type", sc "object")])].

(** The includes in a tree. *)
Fixpoint incs (v : ynode) : list string :=
  let 'Y k t x c := v in
  (if String.eqb t "!include" then [x] else [])
  ++ (fix go (l : list ynode) : list string := match l with [] => [] | y :: l' => incs y ++ go l' end) c.

Lemma mentions_incs v x : mentions v x -> In x (incs v).
Proof.
  intros (t & W & K & T & V). induction W as [|k tag value c y I W IH].
  - destruct t as [k0 t0 v0 c0]. simpl in *. subst. now left.
  - simpl. apply in_app_iff. right. induction c as [|z c IHc]; [destruct I|]. simpl. apply in_app_iff.
    destruct I as [->|I]; [left; exact IH|right; exact (IHc I)].
Qed.

(** The files with the includes that lead to files. *)
Definition ranks (d : disk) (rank : string -> nat) : bool :=
  forallb (fun f => forallb (fun x => negb (existsb (fun g => String.eqb (fst (fst g)) x) d)
                                      || Nat.ltb (rank x) (rank (fst (fst f)))) (incs (snd f))) d.

Lemma find_file_in f d x : find_file f d = Some x -> In x d /\ f x = true.
Proof.
  induction d as [|y d IH]; simpl; [discriminate|]. destruct (f y) eqn:F.
  - intros H. injection H as <-. auto.
  - intros H. destruct (IH H). auto.
Qed.

(** Different names make different texts. *)
Definition apart (d : disk) : bool :=
  forallb (fun f => forallb (fun g => implb (String.eqb (text_of f) (text_of g)) (String.eqb (fst (fst f)) (fst (fst g)))) d) d.

Lemma disk_tree d path v : apart d = true -> file_tree (on_disk d) path v -> exists h, In (path, h, v) d.
Proof.
  intros A (text & tag & value & more & R & Y). simpl in R, Y.
  destruct (find_file (fun x => String.eqb (fst (fst x)) path) d) as [f|] eqn:F; [|discriminate]. simpl in R. injection R as <-.
  destruct (find_file (fun x => String.eqb (text_of x) (text_of f)) d) as [g|] eqn:G; [|discriminate]. simpl in Y. injection Y as _ _ <- _.
  apply find_file_in in F. destruct F as [F1 F2]. apply find_file_in in G. destruct G as [G1 G2].
  apply String.eqb_eq in F2. unfold apart in A. rewrite forallb_forall in A. specialize (A _ G1). rewrite forallb_forall in A.
  specialize (A _ F1). rewrite G2 in A. simpl in A. apply String.eqb_eq in A. exists (snd (fst g)).
  assert (E : (path, snd (fst g), snd g) = g). { destruct g as [[g1 g2] g3]. simpl in *. congruence. }
  now rewrite E.
Qed.

Lemma disk_acyclic d rank : apart d = true -> ranks d rank = true -> no_include_cycle (on_disk d).
Proof.
  intros A K. exists rank. intros path v x T M R. simpl. simpl in R.
  destruct (disk_tree d path v A T) as (h & I). unfold ranks in K. rewrite forallb_forall in K. specialize (K _ I).
  rewrite forallb_forall in K. specialize (K x (mentions_incs v x M)). apply orb_true_iff in K. destruct K as [K|K].
  - exfalso. apply negb_true_iff in K. destruct (find_file (fun y => String.eqb (fst (fst y)) x) d) as [g|] eqn:G; [|apply R; reflexivity].
    apply find_file_in in G. destruct G as [G1 G2].
    assert (X : existsb (fun g => String.eqb (fst (fst g)) x) d = true) by (apply existsb_exists; eauto). congruence.
  - apply Nat.ltb_lt in K. exact K.
Qed.

Example C44_case :
  finite_files (on_disk d44) /\ no_include_cycle (on_disk d44)
  /\ fst (load d44 9 "a.raml") = Ok (ELib 0)
  /\ map l_uses (p_libs (snd (load d44 9 "a.raml"))) = [[("b", Some 1)]; [("a", Some 0)]].
Proof.
  split; [apply on_disk_finite|]. split; [|split; vm_compute; reflexivity].
  apply (disk_acyclic d44 (fun x => if String.eqb x "a.raml" then 1 else 0)); vm_compute; reflexivity.
Qed.

(** * C44: one object for each file *)

(** When no circle of references between files passes through an include, a
    document that loads has one Library object for each library file, the
    entry point is the one of its path, and every entry of every [uses] leads to
    the object of the path it names. *)
Theorem C44_once_partial : forall E n text path ep p,
  no_mixed_cycle E -> e_read (d_y E) path = Some text -> decode_fragment E n text path new_raml = (Ok ep, p) ->
  one_each p /\ (forall q, well_linked E p q) /\ (forall l, ep = ELib l -> oget path (p_frags p) = Some (FLib l)).
Proof. intros E n text path ep p (rank & R). exact (fragment_once E rank R n text path ep p). Qed.
Print Assumptions C44_once_partial.

(** The values of all nodes of a tree. *)
Fixpoint vals (v : ynode) : list string :=
  let 'Y k t x c := v in
  x :: (fix go (l : list ynode) : list string := match l with [] => [] | y :: l' => vals y ++ go l' end) c.

Lemma vals_child k t x c y z : In y c -> In z (vals y) -> In z (vals (Y k t x c)).
Proof.
  intros I Z. right. induction c as [|w c IH]; [destruct I|]. apply in_app_iff.
  destruct I as [->|I]; [left; exact Z|right; exact (IH I)].
Qed.

Lemma vals_self v : In (y_value v) (vals v).
Proof. destruct v. now left. Qed.

Lemma pairs_child l ps k x : pairs_of l ps -> In (k, x) ps -> In x l.
Proof. intros P. induction P as [|a b l ps P IH]; intros I; [destruct I|]. destruct I as [I|I]; [injection I as _ <-; now right; left|right; right; auto]. Qed.

Lemma last_in (l : list (string * ynode)) k x : last_pair l k x -> In (k, x) l.
Proof. intros (b & a & E & _). rewrite E. apply in_app_iff. right. now left. Qed.

Lemma uses_vals v name value : uses_entry v name value -> In value (vals v).
Proof.
  intros (ps & u & us & x & P & L & P' & L' & <-). destruct v as [k t w c]. cbn in P.
  apply last_in in L. apply filter_In in L. apply (vals_child k t w c u); [exact (pairs_child _ _ _ _ P (proj1 L))|].
  destruct u as [k' t' w' c']. cbn in P'. apply (vals_child k' t' w' c' x); [exact (pairs_child _ _ _ _ P' (last_in _ _ _ L'))|apply vals_self].
Qed.

(** No file names a file of a higher rank. *)
Definition levels (d : disk) (rank : string -> nat) : bool :=
  forallb (fun f => forallb (fun x => negb (existsb (fun g => String.eqb (fst (fst g)) x) d)
                                      || Nat.leb (rank x) (rank (fst (fst f)))) (vals (snd f))) d.

Lemma on_file d x : e_read (d_y (on_disk d)) x <> None -> existsb (fun g => String.eqb (fst (fst g)) x) d = true.
Proof.
  simpl. intros R. destruct (find_file (fun y => String.eqb (fst (fst y)) x) d) as [g|] eqn:G; [|destruct (R eq_refl)].
  apply find_file_in in G. destruct G as [G1 G2]. apply existsb_exists. eauto.
Qed.

Lemma disk_mixed d rank : apart d = true -> ranks d rank = true -> levels d rank = true -> no_mixed_cycle (on_disk d).
Proof.
  intros A K Lv. exists rank. intros path v T. destruct (disk_tree d path v A T) as (h & I). split.
  - intros x M R. apply on_file in R. unfold ranks in K. rewrite forallb_forall in K. specialize (K _ I).
    rewrite forallb_forall in K. specialize (K x (mentions_incs v x M)). simpl in R. rewrite R in K. now apply Nat.ltb_lt in K.
  - intros name value U R. apply on_file in R. unfold levels in Lv. rewrite forallb_forall in Lv. specialize (Lv _ I).
    rewrite forallb_forall in Lv. specialize (Lv value (uses_vals v name value U)). simpl in R. rewrite R in Lv. now apply Nat.leb_le in Lv.
Qed.

Example C44_once_case :
  no_mixed_cycle (on_disk d44) /\ fst (load d44 9 "a.raml") = Ok (ELib 0)
  /\ p_frags (snd (load d44 9 "a.raml")) = [("t.raml", FDT [] (Some 7)); ("a.raml", FLib 0); ("b.raml", FLib 1)]
  /\ uses_entry (mp [("uses", mp [("b", sc "b.raml")]); ("types", mp [("T", inc "t.raml")])]) "b" "b.raml".
Proof.
  split; [|split; [vm_compute; reflexivity|split; [vm_compute; reflexivity|]]].
  - apply (disk_mixed d44 (fun x => if String.eqb x "t.raml" then 0 else 1)); vm_compute; reflexivity.
  - exists [("uses", mp [("b", sc "b.raml")]); ("types", mp [("T", inc "t.raml")])], (mp [("b", sc "b.raml")]), [("b", sc "b.raml")], (sc "b.raml").
    split; [repeat constructor|]. split; [exists [], [("types", mp [("T", inc "t.raml")])]; split; [reflexivity|cbn; intuition discriminate]|].
    split; [repeat constructor|]. split; [|reflexivity]. exists [], []. split; [reflexivity|cbn; tauto].
Qed.

(** * What fails *)

(** A library that includes a data type that uses the library:
<<
    m.raml: types: {A: !include d.raml}
    d.raml: uses: {m: m.raml}, type: string
>>
    The library is decoded a second time while its first decoding is not
    finished; the entry point is not the library that references see. *)
Definition d44b : disk :=
  [("m.raml", lib_head, mp [("types", mp [("A", inc "d.raml")])]);
   ("d.raml", dt_head, mp [("uses", mp [("m", sc "m.raml")]); ("type", sc "string")])].


(** One file, two Library objects; the entry point is not the library in the
    cache, which the data type sees. *)
Theorem C44_loaded_twice_refuted : exists E text path n p,
  finite_files E /\ no_include_cycle E /\ e_read (d_y E) path = Some text
  /\ decode_fragment E n text path new_raml = (Ok (ELib 1), p)
  /\ oget path (p_frags p) = Some (FLib 0) /\ List.length (p_libs p) = 2
  /\ (forall q l, oget q (p_frags p) = Some (FLib l) -> q = path).
Proof.
  exists (on_disk d44b), (lib_head ++ "m.raml")%string, "m.raml", 9, (snd (load d44b 9 "m.raml")).
  split; [apply on_disk_finite|]. split.
  { apply (disk_acyclic d44b (fun x => if String.eqb x "m.raml" then 1 else 0)); vm_compute; reflexivity. }
  split; [vm_compute; reflexivity|]. split; [vm_compute; reflexivity|]. split; [vm_compute; reflexivity|]. split; [vm_compute; reflexivity|].
  assert (F : p_frags (snd (load d44b 9 "m.raml")) = [("d.raml", FDT [("m", Some 0)] (Some 7)); ("m.raml", FLib 0)]) by (vm_compute; reflexivity).
  rewrite F. intros q l. simpl. destruct (String.eqb q "d.raml"); [discriminate|].
  destruct (String.eqb q "m.raml") eqn:Q; [|discriminate]. intros _. now apply String.eqb_eq in Q.
Qed.
Print Assumptions C44_loaded_twice_refuted.

(** A data type that includes itself, [x.raml: type: !include x.raml], is read
    for ever. *)
Definition d45x : disk := [("x.raml", dt_head, mp [("type", inc "x.raml")])].

Lemma x_step pd pn pl p : p_frags p = [] -> (forall p', p_frags p' = [] -> fst (pd "x.raml" p') = OutOfFuel) ->
  fst (decode_dt (on_disk d45x) pd pn pl (dt_head ++ "x.raml") "x.raml" p) = OutOfFuel.
Proof.
  intros F H. destruct p as [s l f d e t an td fc]. simpl in F. subst f. vm_compute.
  match goal with |- context [pd ?x ?q] => pose proof (H q eq_refl) as Hq; destruct (pd x q) as [r p'] end.
  simpl in Hq. subst r. reflexivity.
Qed.

Lemma x_diverges : forall n p, p_frags p = [] -> fst (parse_dt (on_disk d45x) n "x.raml" p) = OutOfFuel.
Proof.
  induction n as [|n IH]; intros p F; [reflexivity|]. rewrite parse_dt_eq, F. cbn [oget].
  change (open_fragment (on_disk d45x) "x.raml" KDataType) with (Ok (dt_head ++ "x.raml")%string).
  apply x_step; auto.
Qed.

Theorem C45_include_cycle_refuted : exists E text path,
  finite_files E /\ e_read (d_y E) path = Some text
  /\ forall n, ~ ended (decode_fragment E n text path new_raml).
Proof.
  exists (on_disk d45x), (dt_head ++ "x.raml")%string, "x.raml". split; [apply on_disk_finite|]. split; [reflexivity|].
  intros n En. apply En. change (fst (dbind (decode_dt (on_disk d45x) (parse_dt (on_disk d45x) n) (parse_ne (on_disk d45x)) (parse_lib (on_disk d45x) n) (dt_head ++ "x.raml") "x.raml") (fun a => dret (EDT a)) new_raml) = OutOfFuel).
  unfold dbind. pose proof (x_step (parse_dt (on_disk d45x) n) (parse_ne (on_disk d45x)) (parse_lib (on_disk d45x) n) new_raml eq_refl (x_diverges n)) as X.
  destruct (decode_dt _ _ _ _ _ _ _) as [[]]; simpl in *; congruence.
Qed.
Print Assumptions C45_include_cycle_refuted.

(** ** C46 *)

(** [facets] is a list: [types: {T: {facets: [a]}}]. *)
Definition d46a : disk := [("a.raml", lib_head, mp [("types", mp [("T", mp [("facets", sq [sc "a"])])])])].
(** [uses] of a data type is a list. *)
Definition d46b : disk := [("a.raml", dt_head, mp [("uses", sq [sc "a"]); ("type", sc "string")])].
(** Documents without content: the first line only, or [~]. *)
Definition d46c : disk := [("a.raml", lib_head, nl)].
Definition d46d : disk := [("a.raml", dt_head, nl)].
(** A data type included as a type and used as a library. *)
Definition d46e : disk :=
  [("a.raml", lib_head, mp [("uses", mp [("t", sc "t.raml")]); ("types", mp [("T", inc "t.raml")])]);
   ("t.raml", dt_head, mp [("type", sc "string")])].
(** A composite type without parents: [types: {T: {type: []}}]. *)
Definition d46f : disk := [("a.raml", lib_head, mp [("types", mp [("T", mp [("type", sq [])])])])].

Theorem C46_documents_refuted :
  (forall d, In d [d46a; d46b; d46c; d46d; d46e] -> forall n, 2 <= n -> fst (load d n "a.raml") = Panic)
  /\ (forall n, fst (load d46f n "a.raml") = Ok (ELib 0))
  /\ (forall n, 2 <= n -> fst (resolve_fragment (on_disk d46f) n (snd (load d46f n "a.raml"))) = Panic).
Proof.
  split; [|split].
  - intros d I n L. destruct n as [|[|n]]; [lia|lia|].
    simpl in I. repeat (destruct I as [<-|I]; [vm_compute; reflexivity|]). destruct I.
  - intros n. vm_compute. reflexivity.
  - intros n L. destruct n as [|[|n]]; [lia|lia|]. vm_compute. reflexivity.
Qed.
Print Assumptions C46_documents_refuted.
