(** Locations are clean absolute paths (C72), and the ways to parse agree (C73). *)
From Coq Require Import ZArith List String Bool Ascii Lia.
From Verif Require Import Base Scalars Heap Names Yaml Spec_Yaml Pipeline Decode Parse Heap_lemmas Pipeline_proofs Spec_Parse Keep_loc
  Path Spec_Path Path_proofs Path_keys Props_Parse Props_Fresh Props_Found Props_Validate Props_Locate.
Import ListNotations.
Open Scope string_scope.
Open Scope list_scope.
Open Scope nat_scope.

(** Paths of used and included files are made as on Unix. *)
Definition unix (E : denv) : Prop := forall q v, e_join (d_y E) q v = resolve_path q v.

(** * C72 *)

(** The location of a used or included file is the spelling of the place that
    one comes to from the directory of the file that mentions it, whatever the
    text of the path is; and a place has one spelling. *)
Theorem C72_resolved : forall N v, place_ok N ->
  exists M, refers_to N v M /\ place_ok M /\ resolve_path (spelling N) v = spelling M
  /\ forall M', refers_to N v M' -> M' = M.
Proof.
  intros N v K. destruct (resolve_refers N v K) as (M & W & KM & R). exists M. split; [exact W|]. split; [exact KM|]. split; [exact R|].
  intros M' W'. exact (refers_det _ _ _ _ W' W).
Qed.
Print Assumptions C72_resolved.
Theorem C72_one_spelling : forall N M, place_ok N -> place_ok M -> spelling N = spelling M -> N = M.
Proof. exact spelling_inj. Qed.
Print Assumptions C72_one_spelling.

(** The location of the entry file: for a relative path, the place that one
    comes to from the working directory; for a text, from the base directory; an
    absolute path is taken as it is. *)
Theorem C72_entry : forall dir path, is_abs dir = true ->
  exists D M, parts dir (elements dir) /\ follow [] (elements dir) D /\ parts path (elements path) /\ follow D (elements path) M /\ place_ok M
  /\ string_name dir path = spelling M
  /\ (is_abs path = false -> file_name dir path = spelling M)
  /\ (is_abs path = true -> file_name dir path = path).
Proof.
  intros dir path A. destruct (clean_rooted dir A) as (D & W & _). destruct (join_abs dir path A D W) as (M & W' & K & R).
  exists D, M. split; [now apply parts_iff|]. split; [exact W|]. split; [now apply parts_iff|]. split; [exact W'|]. split; [exact K|]. split; [exact R|].
  unfold file_name. destruct (is_abs path); (split; intros H; [|]); try discriminate; auto.
Qed.
Print Assumptions C72_entry.

(** ** All locations *)
Lemma fragment_back n loc f u s u' s' q : oget loc (u_frags u) <> None -> unwrap_fragment n loc f u s = (Ok u', s') ->
  oget q (u_frags u') <> None -> oget q (u_frags u) <> None.
Proof.
  intros L H K. destruct f as [l|us [a|]|]; cbn [unwrap_fragment] in H.
  - destruct (nth_error (u_libs u) l) as [lib|]; [|discriminate]. apply bind_inv in H. destruct H as ([[ok an] ia] & s1 & _ & H).
    apply bind_inv in H. destruct H as ([[ok' ty] it] & s2 & _ & H). injection H as <- _. exact K.
  - apply bind_inv in H. destruct H as ([us'|] & s1 & _ & H); [|injection H as <- _; exact K].
    apply bind_inv in H. destruct H as ([] & s2 & _ & H). apply bind_inv in H. destruct H as (ub & s3 & _ & H). injection H as <- _. cbn [u_frags] in K.
    destruct (string_dec q loc) as [->|N]; [exact L|]. now rewrite oget_oset_other in K.
  - injection H as <- _. exact K.
  - injection H as <- _. exact K.
Qed.
Lemma fragments_back n o : forall u s u' s' q, unwrap_fragments n o u s = (Ok u', s') ->
  oget q (u_frags u') <> None -> oget q (u_frags u) <> None.
Proof.
  induction o as [|k o IH]; intros u s u' s' q H K; cbn [unwrap_fragments] in H; [injection H as <- _; exact K|].
  destruct (oget k (u_frags u)) as [f|] eqn:G; [|exact (IH _ _ _ _ _ H K)]. apply bind_inv in H. destruct H as (u1 & s1 & H1 & H).
  refine (fragment_back _ _ _ _ _ _ _ q _ H1 (IH _ _ _ _ _ H K)). congruence.
Qed.

(** Any property of paths that the entry file has and that is kept when a path is
    resolved against another holds for all locations, with all options. *)
Lemma everywhere E (Q : string -> Prop) : (forall q v, Q q -> Q (e_join (d_y E) q v)) ->
  forall n O o1 o2 o3 u v text path ep p, Q path -> parse_string E n O o1 o2 o3 u v text path = (Ok ep, p) -> all_locations Q p.
Proof.
  intros Jn n O o1 o2 o3 u v text path ep p Qp H. pose proof (C71_located _ _ _ _ _ _ _ _ _ _ _ _ H) as [T X].
  assert (F : forall q f, oget q (p_frags p) = Some f -> Q q).
  { clear T X. unfold parse_string, parse_fragment in H. unfold dbind at 1 in H.
    destruct (decode_fragment E n text path new_raml) as [[e| | |] p1] eqn:D; try discriminate. apply (fragment_pathed E Q Jn _ _ _ _ _ Qp) in D.
    unfold dbind at 1 in H. destruct (resolve_fragment E n p1) as [[w| | |] p2] eqn:Er; try discriminate.
    apply (resolve_pathed E Q Jn _ _ _ _ Er) in D. destruct D as (_ & _ & Z).
    assert (K : exists p3, (forall q, oget q (p_frags p3) <> None -> Q q) /\
      dbind (if v then fun p => match validate_shapes n O o3 (raml_of p) (p_st p) with (r, s) => (r, with_raml p s (raml_of p)) end else dret tt)
        (fun _ => dret e) p3 = (Ok ep, p)).
    { destruct u.
      - unfold dbind at 1 in H. destruct (unwrap_shapes n o1 o2 (raml_of p2) (p_st p2)) as [[R| | |] s] eqn:U; try discriminate.
        exists (with_raml p2 s R). split; [|exact H]. intros q Hq. cbn [with_raml p_frags] in Hq.
        apply unwrap_shapes_inv in U. destruct U as (u & s1 & Hf & _ & _ & _ & Qf & _). rewrite Qf in Hq. apply Z. exact (fragments_back _ _ _ _ _ _ q Hf Hq).
      - exists p2. split; [exact Z|exact H]. }
    clear - K. destruct K as (p3 & Z & H). intros q f G. assert (Hq : oget q (p_frags p3) <> None); [|exact (Z q Hq)].
    destruct v; unfold dbind, dret in H; [|injection H as _ <-; congruence].
    destruct (validate_shapes n O o3 (raml_of p3) (p_st p3)) as [[w| | |] s] eqn:V; try discriminate. injection H as _ <-. cbn [with_raml p_frags raml_of r_frags] in G. congruence. }
  split; [exact F|]. split.
  - intros a b G. destruct (T a b G) as [f Hf]. exact (F _ _ Hf).
  - intros e J. destruct (X e J) as [f Hf]. exact (F _ _ Hf).
Qed.

Theorem C72_locations : forall E n O o1 o2 o3 u v text path ep p,
  unix E -> spelled path -> parse_string E n O o1 o2 o3 u v text path = (Ok ep, p) -> all_locations spelled p.
Proof.
  intros E n O o1 o2 o3 u v text path ep p Ux Pl. apply (everywhere E spelled); [|exact Pl]. intros q w K. rewrite Ux. now apply spelled_resolve.
Qed.
Print Assumptions C72_locations.

(** ParseFromPath with a relative path, and with an absolute one that is the
    spelling of a place; ParseFromString with any directory and name. *)
Theorem C72_from_path : forall E n O o1 o2 o3 workdir path opts ep p,
  unix E -> is_abs workdir = true -> (is_abs path = true -> spelled path) ->
  parse_from_path E n O o1 o2 o3 workdir path opts = (Ok ep, p) -> all_locations spelled p.
Proof.
  intros E n O o1 o2 o3 workdir path opts ep p Ux A Pl H. unfold parse_from_path in H. destruct (e_read _ _) as [text|]; [|discriminate].
  apply (C72_locations _ _ _ _ _ _ _ _ _ _ _ _ Ux) in H; [exact H|]. destruct (C72_entry workdir path A) as (D & M & _ & _ & _ & _ & K & _ & R & Ra).
  destruct (is_abs path); [rewrite Ra by reflexivity; auto|]. rewrite R by reflexivity. exists M. auto.
Qed.
Print Assumptions C72_from_path.
Theorem C72_from_string : forall E n O o1 o2 o3 text name base_dir opts ep p,
  unix E -> parse_from_string E n O o1 o2 o3 text name base_dir opts = (Ok ep, p) -> all_locations spelled p.
Proof.
  intros E n O o1 o2 o3 text name base_dir opts ep p Ux H. unfold parse_from_string in H. destruct (is_abs base_dir) eqn:A; [|discriminate].
  apply (C72_locations _ _ _ _ _ _ _ _ _ _ _ _ Ux) in H; [exact H|]. destruct (C72_entry base_dir name A) as (D & M & _ & _ & _ & _ & K & R & _).
  exists M. auto.
Qed.
Print Assumptions C72_from_string.

(** Entries of [uses] in any two loaded files that lead to the same place have the
    same library, however they are written. *)
Theorem C72_shared_partial : forall E n text N ep p,
  unix E -> no_mixed_cycle E -> place_ok N -> e_read (d_y E) (spelling N) = Some text ->
  decode_fragment E n text (spelling N) new_raml = (Ok ep, p) ->
  forall N1 N2 f1 f2 v1 v2 U1 U2 x1 x2 y1 y2 M,
  place_ok N1 -> place_ok N2 -> oget (spelling N1) (p_frags p) = Some f1 -> oget (spelling N2) (p_frags p) = Some f2 ->
  ~ json_type (spelling N1) f1 -> ~ json_type (spelling N2) f2 ->
  file_tree E (spelling N1) v1 -> file_tree E (spelling N2) v2 -> uses_of p f1 = Some U1 -> uses_of p f2 = Some U2 ->
  uses_entry v1 x1 y1 -> uses_entry v2 x2 y2 -> refers_to N1 y1 M -> refers_to N2 y2 M ->
  exists l, oget x1 U1 = Some (Some l) /\ oget x2 U2 = Some (Some l) /\ oget (spelling M) (p_frags p) = Some (FLib l).
Proof.
  intros E n text N ep p Ux Mx K Rd H N1 N2 f1 f2 v1 v2 U1 U2 x1 x2 y1 y2 M K1 K2 F1 F2 J1 J2 T1 T2 Us1 Us2 E1 E2 R1 R2.
  destruct (C44_once_partial _ _ _ _ _ _ Mx Rd H) as (_ & W & _).
  destruct (W _ f1 v1 U1 F1 J1 T1 Us1) as [W1 _]. destruct (W _ f2 v2 U2 F2 J2 T2 Us2) as [W2 _].
  destruct (W1 _ _ E1) as (l1 & G1 & L1). destruct (W2 _ _ E2) as (l2 & G2 & L2). rewrite Ux in L1, L2.
  destruct (C72_resolved N1 y1 K1) as (M1 & _ & _ & Q1 & D1). destruct (C72_resolved N2 y2 K2) as (M2 & _ & _ & Q2 & D2).
  apply D1 in R1. apply D2 in R2. subst M1 M2. rewrite Q1 in L1. rewrite Q2 in L2. rewrite L1 in L2. injection L2 as <-. eauto.
Qed.
Print Assumptions C72_shared_partial.

(** ** Files in directories: a file is found under every path that leads to it. *)
Definition unix_disk (real : string -> string) (d : disk) : denv :=
  let E := on_disk d in
  {| d_y := {| e_scalar := e_scalar (d_y E); e_join := resolve_path; e_ext := e_ext (d_y E);
               e_read := fun q => e_read (d_y E) (real q); e_yaml := e_yaml (d_y E); e_json := e_json (d_y E) |};
     d_bool := d_bool E; d_text := d_text E; d_uint := d_uint E; d_float := d_float E; d_any := d_any E; d_string := d_string E;
     d_strict := d_strict E; d_int := d_int E; d_re := d_re E; d_schema := d_schema E; d_base := d_base E |}.
Definition on_unix : disk -> denv := unix_disk clean.
Definition from_path (d : disk) (n : nat) (workdir path : string) (opts : list parse_opt) : res entry_point * pst :=
  let o := map (fun x => fst (fst x)) d in parse_from_path (on_unix d) n exO o o o workdir path opts.

(** Two libraries that use each other:
<<
    /d/m.raml: uses: {l: l.raml}, types: {T: string}
    /d/l.raml: uses: {m: ../d/x/../m.raml}, types: {U: m.T, V: !include .//t.raml}
    /d/t.raml: type: object
>> *)
Definition d72 : disk :=
  [("/d/m.raml", lib_head, mp [("uses", mp [("l", sc "l.raml")]); ("types", mp [("T", sc "string")])]);
   ("/d/l.raml", lib_head, mp [("uses", mp [("m", sc "../d/x/../m.raml")]); ("types", mp [("U", sc "m.T"); ("V", inc ".//t.raml")])]);
   ("/d/t.raml", dt_head, mp [("type", sc "object")])].

(** The libraries are loaded once each when the path is relative or clean. *)
Example C72_case : fst (from_path d72 20 "/d" "m.raml" [WithUnwrap; WithValidate]) = Ok (ELib 0)
  /\ map fst (p_frags (snd (from_path d72 20 "/d" "m.raml" [WithUnwrap; WithValidate]))) = ["/d/m.raml"; "/d/t.raml"; "/d/l.raml"]
  /\ from_path d72 20 "/d" "../d/./m.raml" [] = from_path d72 20 "/" "/d/m.raml" []
  /\ List.length (p_libs (snd (from_path d72 20 "/d" "../d/./m.raml" []))) = 2
  /\ unix (on_unix d72) /\ is_abs "/d" = true /\ is_abs "m.raml" = false /\ spelled "/d/m.raml"
  /\ refers_to ["d"; "l.raml"] "../d/x/../m.raml" ["d"; "m.raml"] /\ refers_to ["d"; "m.raml"] "/x/./y" ["d"; "x"; "y"].
Proof.
  split; [vm_compute; reflexivity|]. split; [vm_compute; reflexivity|]. split; [vm_compute; reflexivity|]. split; [vm_compute; reflexivity|].
  split; [intros q v; reflexivity|]. split; [reflexivity|]. split; [reflexivity|]. split.
  { exists ["d"; "m.raml"]. split; [|reflexivity]. repeat constructor; discriminate. }
  assert (N : forall n, In n ["d"; "x"; "y"; "m.raml"] -> name_ok n).
  { intros n [<-|[<-|[<-|[<-|[]]]]]; (repeat split); discriminate. }
  split.
  - exists (elements "../d/x/../m.raml"). split; [now apply parts_iff|]. cbn. apply (follow_up [] "d"). apply follow_down; [apply N; cbn; auto|].
    apply follow_down; [apply N; cbn; auto|]. apply (follow_up ["d"] "x"). apply follow_down; [apply N; cbn; auto|]. constructor.
  - exists (elements "/x/./y"). split; [now apply parts_iff|]. cbn. apply follow_stay; [now left|]. apply follow_down; [apply N; cbn; auto|].
    apply follow_stay; [now right|]. apply follow_down; [apply N; cbn; auto|]. constructor.
Qed.

(** The hypotheses of the theorem about sharing hold for these files, found under
    the spelling of their places only. *)
Lemma unix_mixed d rank : apart d = true ->
  forallb (fun f => forallb (fun x => negb (existsb (fun g => String.eqb (fst (fst g)) (resolve_path (fst (fst f)) x)) d)
                                      || Nat.ltb (rank (resolve_path (fst (fst f)) x)) (rank (fst (fst f)))) (incs (snd f))) d = true ->
  forallb (fun f => forallb (fun x => negb (existsb (fun g => String.eqb (fst (fst g)) (resolve_path (fst (fst f)) x)) d)
                                      || Nat.leb (rank (resolve_path (fst (fst f)) x)) (rank (fst (fst f)))) (vals (snd f))) d = true ->
  no_mixed_cycle (unix_disk (fun q => q) d).
Proof.
  intros A K Lv. exists rank. intros path v T. destruct (disk_tree d path v A T) as (h & I). split.
  - intros x M R. apply (on_file d) in R. rewrite forallb_forall in K. specialize (K _ I). cbn [fst snd] in K.
    rewrite forallb_forall in K. specialize (K x (mentions_incs v x M)). cbn [d_y unix_disk e_join] in R. rewrite R in K. now apply Nat.ltb_lt in K.
  - intros name value U R. apply (on_file d) in R. rewrite forallb_forall in Lv. specialize (Lv _ I). cbn [fst snd] in Lv.
    rewrite forallb_forall in Lv. specialize (Lv value (uses_vals v name value U)). cbn [d_y unix_disk e_join] in R. rewrite R in Lv. now apply Nat.leb_le in Lv.
Qed.
Definition tree72 (k : nat) : ynode := match nth_error d72 k with Some f => snd f | None => nl end.
Example C72_shared_case :
  let E := unix_disk (fun q => q) d72 in
  let r := decode_fragment E 20 (lib_head ++ "/d/m.raml") "/d/m.raml" new_raml in
  unix E /\ no_mixed_cycle E /\ e_read (d_y E) (spelling ["d"; "m.raml"]) = Some (lib_head ++ "/d/m.raml")%string
  /\ fst r = Ok (ELib 0) /\ p_frags (snd r) = [("/d/m.raml", FLib 0); ("/d/t.raml", FDT [] (Some 15)); ("/d/l.raml", FLib 1)]
  /\ file_tree E (spelling ["d"; "l.raml"]) (tree72 1) /\ uses_entry (tree72 1) "m" "../d/x/../m.raml"
  /\ uses_of (snd r) (FLib 1) = Some [("m", Some 0)].
Proof.
  intros E r. split; [intros q v; reflexivity|]. split.
  { apply (unix_mixed d72 (fun x => if String.eqb x "/d/t.raml" then 0 else 1)); vm_compute; reflexivity. }
  split; [vm_compute; reflexivity|]. split; [vm_compute; reflexivity|]. split; [vm_compute; reflexivity|]. split.
  { exists (lib_head ++ "/d/l.raml")%string, "", "", []. split; vm_compute; reflexivity. }
  split; [|vm_compute; reflexivity].
  exists [("uses", mp [("m", sc "../d/x/../m.raml")]); ("types", mp [("U", sc "m.T"); ("V", inc ".//t.raml")])], (mp [("m", sc "../d/x/../m.raml")]),
    [("m", sc "../d/x/../m.raml")], (sc "../d/x/../m.raml").
  split; [repeat constructor|]. split; [exists [], [("types", mp [("U", sc "m.T"); ("V", inc ".//t.raml")])]; split; [reflexivity|cbn; intuition discriminate]|].
  split; [repeat constructor|]. split; [|reflexivity]. exists [], []. split; [reflexivity|cbn; tauto].
Qed.

(** An absolute path is not cleaned: with [/d/./m.raml] the entry file is loaded a
    second time, as [/d/m.raml], when [l.raml] uses it, and its types exist twice. *)
Lemma clean_clean q : is_abs q = true -> clean (clean q) = clean q.
Proof.
  intros A. destruct (clean_rooted q A) as (M & _ & K & ->). destruct (clean_rooted (spelling M) eq_refl) as (M' & W & _ & ->).
  f_equal. exact (follow_det _ _ _ (follow_spelling M K) _ W).
Qed.
Theorem C72_unclean_refuted : exists E n O o path ep p q1 q2 l1 l2,
  unix E /\ (forall q, is_abs q = true -> e_read (d_y E) q = e_read (d_y E) (clean q)) /\ is_abs path = true
  /\ parse_from_path E n O o o o "/d" path [] = (Ok ep, p)
  /\ oget q1 (p_frags p) = Some (FLib l1) /\ oget q2 (p_frags p) = Some (FLib l2) /\ clean q1 = clean q2 /\ l1 <> l2
  /\ ~ spelled q1.
Proof.
  exists (on_unix d72), 20, exO, (map (fun x => fst (fst x)) d72), "/d/./m.raml", (ELib 0), (snd (from_path d72 20 "/d" "/d/./m.raml" [])),
    "/d/./m.raml", "/d/m.raml", 0, 2.
  split; [intros q v; reflexivity|]. split.
  { intros q A. unfold on_unix, unix_disk. cbn [d_y e_read]. now rewrite (clean_clean q A). }
  split; [reflexivity|]. split; [vm_compute; reflexivity|]. split; [vm_compute; reflexivity|]. split; [vm_compute; reflexivity|].
  split; [reflexivity|]. split; [discriminate|]. intros (N & K & Q). apply (f_equal elements) in Q. rewrite (spelling_elements N K) in Q. cbn in Q.
  injection Q as Q. destruct N as [|a [|b N]]; try discriminate Q. injection Q as _ <- _. inversion_clear K as [|? ? _ K']. inversion_clear K' as [|? ? (_ & Kd & _) _].
  now apply Kd.
Qed.
Print Assumptions C72_unclean_refuted.

(** * C73 *)

(** Options are flags: what counts is which ones are given, not how often or in
    which order. *)
Theorem C73_options : forall l,
  (fst (apply_opts l) = true <-> In WithUnwrap l) /\ (snd (apply_opts l) = true <-> In WithValidate l).
Proof.
  intros l. unfold apply_opts.
  assert (G : forall l o, (fst (fold_left apply_opt l o) = true <-> fst o = true \/ In WithUnwrap l)
                       /\ (snd (fold_left apply_opt l o) = true <-> snd o = true \/ In WithValidate l)).
  { clear l. induction l as [|x l IH]; intros o; [cbn; tauto|]. cbn [fold_left]. destruct (IH (apply_opt o x)) as [I1 I2]. rewrite I1, I2.
    destruct x; cbn [apply_opt fst snd In]; intuition congruence. }
  destruct (G l (false, false)) as [G1 G2]. cbn [fst snd] in *. rewrite G1, G2. intuition discriminate.
Qed.
Print Assumptions C73_options.
Theorem C73_order : forall E n O o1 o2 o3 workdir path l l', (forall x, In x l <-> In x l') ->
  parse_from_path E n O o1 o2 o3 workdir path l = parse_from_path E n O o1 o2 o3 workdir path l'.
Proof.
  intros E n O o1 o2 o3 workdir path l l' H. assert (Q : apply_opts l = apply_opts l').
  { destruct (C73_options l) as [A B], (C73_options l') as [A' B'].
    destruct (apply_opts l) as [u v], (apply_opts l') as [u' v']. cbn [fst snd] in *. rewrite H in A, B. rewrite <- A' in A. rewrite <- B' in B.
    f_equal; apply eq_true_iff_eq; assumption. }
  unfold parse_from_path. now rewrite Q.
Qed.
Print Assumptions C73_order.

(** Parsing a file is parsing its text: same result and same model. *)
Theorem C73_file_text : forall E n O o1 o2 o3 workdir N name opts text,
  place_ok (N ++ [name]) -> e_read (d_y E) (spelling (N ++ [name])) = Some text ->
  parse_from_path E n O o1 o2 o3 workdir (spelling (N ++ [name])) opts = parse_from_string E n O o1 o2 o3 text name (spelling N) opts.
Proof.
  intros E n O o1 o2 o3 workdir N name opts text K R. unfold parse_from_path, parse_from_string, parse_from_string_ctx, file_name.
  change (is_abs (spelling (N ++ [name]))) with true. change (is_abs (spelling N)) with true. cbv iota. rewrite R. f_equal.
  apply Forall_app in K. destruct K as [K Kn]. inversion_clear Kn as [|? ? Kn' _].
  destruct (join_abs (spelling N) name eq_refl N (follow_spelling N K)) as (M & W & _ & Q). unfold string_name. rewrite Q. f_equal.
  rewrite (unbroken_elements name) in W by apply Kn'. refine (follow_det _ _ _ W _ _). apply follow_down; [exact Kn'|constructor].
Qed.
Print Assumptions C73_file_text.

(** The methods UnwrapShapes and ValidateShapes, called on a parsed model. *)
Definition call_unwrap (n : nat) (o1 o2 : list string) : D unit := fun p =>
  let '(r, s) := unwrap_shapes n o1 o2 (raml_of p) (p_st p) in
  match r with
  | Ok R => (Ok tt, with_raml p s R)
  | Err => (Err, with_raml p s (raml_of p))
  | Panic => (Panic, with_raml p s (raml_of p))
  | OutOfFuel => (OutOfFuel, with_raml p s (raml_of p))
  end.
Definition call_validate (n : nat) (O : oracle) (o : list string) : D unit := fun p =>
  let '(r, s) := validate_shapes n O o (raml_of p) (p_st p) in (r, with_raml p s (raml_of p)).

(** Parsing with options is parsing without, and then calling UnwrapShapes and
    ValidateShapes, in this order, if the option is given. *)
Theorem C73_stages : forall E n O o1 o2 o3 u v text path p,
  parse_fragment E n O o1 o2 o3 u v text path p
  = (ep <- parse_fragment E n O o1 o2 o3 false false text path ;;
     (if u then call_unwrap n o1 o2 else dret tt) ;;;
     (if v then call_validate n O o3 else dret tt) ;;;
     dret ep)%D p.
Proof.
  intros E n O o1 o2 o3 u v text path p. unfold parse_fragment, dbind, dret.
  destruct (decode_fragment E n text path p) as [[ep| | |] p1]; try reflexivity.
  destruct (resolve_fragment E n p1) as [[w| | |] p2]; try reflexivity.
Qed.
Print Assumptions C73_stages.

Example C73_case :
  place_ok (["d"] ++ ["m.raml"]) /\ e_read (d_y (on_unix d72)) (spelling (["d"] ++ ["m.raml"])) = Some (lib_head ++ "/d/m.raml")%string
  /\ fst (from_path d72 20 "/" "/d/m.raml" [WithValidate; WithUnwrap; WithValidate]) = Ok (ELib 0)
  /\ apply_opts [WithValidate; WithUnwrap; WithValidate] = (true, true) /\ apply_opts [WithValidate] = (false, true)
  /\ (let o := map (fun x => fst (fst x)) d72 in
      parse_from_string (on_unix d72) 20 exO o o o (lib_head ++ "/d/m.raml") "m.raml" "/d" [WithUnwrap; WithValidate]
      = from_path d72 20 "/" "/d/m.raml" [WithValidate; WithUnwrap; WithValidate]).
Proof.
  split; [repeat constructor; discriminate|]. split; [vm_compute; reflexivity|]. split; [vm_compute; reflexivity|]. split; [reflexivity|]. split; [reflexivity|].
  vm_compute. reflexivity.
Qed.
