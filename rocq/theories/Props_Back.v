(** Recursive shapes stand for types that contain themselves (C70), and the
    descent through the types of a parsed and unwrapped model is finite (C28). *)
From Coq Require Import ZArith List String Bool Lia Relations.
From Verif Require Import Base Scalars Heap Validate Names Yaml Pipeline Spec_Validate Spec_Model Spec_Pipeline Decode Parse Spec_Calm
  Spec_Mark Spec_Reason Heap_lemmas Mark_proofs Mark_values Mark_back Unwrap_flags Props_Parse Props_Fresh Props_Calm Props_Quiet Props_Reason Props_Validate Spec_Validate.
From Verif Require Parse_fresh Pipeline_proofs.
Import ListNotations.
Open Scope string_scope.
Open Scope list_scope.
Open Scope nat_scope.

(** The marking of a whole model, from any heap: a recursive shape was there
    before, or it stands for a type that contains itself, or for one that carried
    the ShapeVisited flag before the marking began. *)
Theorem C70_marked : forall n order R s s' x hd,
  maps_keyed (heap s) -> mark_fragments n order (r_libs R) (r_frags R) s = (Ok tt, s') -> shape_at (heap s') x (SRec hd) ->
  shape_at (heap s) x (SRec hd) \/ contains_itself (heap s') hd \/ exists b, get_base (heap s) hd = Some b /\ b_visited b = true.
Proof.
  intros n order R s s' x hd K H (b & G & Sh). destruct (mark_fragments_all n R order s s' H) as (l & E & _).
  destruct (Nat.lt_ge_cases x (List.length (heap s))) as [Lx|Lx].
  - left. destruct (mark_all_good n l s _ s' K E) as [(_ & k & Rd) _]. apply redir_cells in Rd. destruct Rd as [Rd _].
    destruct (nth_error (heap s) x) as [c|] eqn:N; [|apply nth_error_Some in N; [destruct N|exact Lx]].
    destruct (Rd _ _ N) as (c' & N' & Cr). apply get_base_nth in G. rewrite N' in G. injection G as ->.
    destruct c as [b0| | | |]; cbn in Cr; try contradiction. exists b0. split; [now apply get_base_nth|].
    destruct Cr as [_ [S|(f & i & i' & _ & _ & S & _)]]; congruence.
  - right. destruct (mark_all_back n l s _ s' x b K E Lx G) as (hd' & Sh' & Q). rewrite Sh in Sh'. injection Sh' as <-.
    destruct Q as [Q|Q]; [|now left]. right. unfold flag in Q. destruct (get_base (heap s) hd) as [b0|]; [eauto|discriminate].
Qed.
Print Assumptions C70_marked.

(** A document without unions is parsed and unwrapped. Every recursive shape of
    the model stands for a type that contains itself, or for one of the kind
    any. *)
Lemma unwrapped_flags E n O o1 o2 o3 text path ep p (na : Prop) u m q1 s1 :
  parse_string E n O o1 o2 o3 false false text path = (Ok ep, p) -> union_free (heap (p_st p)) -> (na -> any_free (heap (p_st p))) ->
  unwrap_fragments m q1 (Ust true (r_libs (raml_of p)) (r_frags (raml_of p)) [] []) (St (heap (p_st p)) [] (st_nextid (p_st p))) = (Ok u, s1) ->
  u_ok u = true -> inv na (fun _ => False) (heap s1).
Proof.
  intros P Un An H E1. refine (proj2 (k_fragments na (fun _ => False) _ _ _ _ _ _ H E1) _). cbn [heap].
  destruct (Parse_fresh.parse_fresh _ _ _ _ _ _ _ _ _ _ P) as [(_ & _ & _ & Fr) _]. split; [|exact (Parse_fresh.parse_keyed _ _ _ _ _ _ _ _ _ _ P)].
  intros x b G. destruct (Fr x b G) as (V & _ & N). split.
  - intros sh Sh. split; [intros sl e ->; exact (Un _ _ _ _ G Sh)|]. split; [intros hd ->; exact (N hd Sh)|]. intros Na ->. apply (An Na x). exists b. auto.
  - rewrite V. discriminate.
Qed.

Lemma unwrap_split m q1 q2 R s R' s' : unwrap_shapes m q1 q2 R s = (Ok R', s') -> exists u s1,
  unwrap_fragments m q1 (Ust true (r_libs R) (r_frags R) [] []) (St (heap s) [] (st_nextid s)) = (Ok u, s1) /\ u_ok u = true
  /\ mark_fragments m q2 (u_libs u) (u_frags u) s1 = (Ok tt, s') /\ r_libs R' = u_libs u /\ r_frags R' = u_frags u.
Proof.
  intros U. unfold unwrap_shapes in U. apply bind_inv in U. destruct U as ([] & s0 & E0 & U). injection E0 as <-.
  apply bind_inv in U. destruct U as (u & s1 & E1 & U). destruct (u_ok u) eqn:Ok1; [|discriminate]. cbn [negb] in U.
  apply bind_inv in U. destruct U as ([] & s2 & E2 & U). apply bind_inv in U. destruct U as ([ok l] & s3 & E3 & U).
  cbn [fst snd] in U. destruct ok; [|discriminate]. cbn [negb] in U. injection U as <- <-.
  assert (s3 = s2) as ->.
  { pose proof (Pipeline_proofs.unwrap_exts_same (u_annots u) (r_exts R) s2) as Q. unfold Heap_lemmas.after in Q. rewrite E3 in Q. exact Q. }
  exists u, s1. auto.
Qed.

Theorem C70_parsed_partial : forall E n O o1 o2 o3 text path ep p m q1 q2 R s x hd,
  parse_string E n O o1 o2 o3 false false text path = (Ok ep, p) -> union_free (heap (p_st p)) ->
  unwrap_shapes m q1 q2 (raml_of p) (p_st p) = (Ok R, s) -> shape_at (heap s) x (SRec hd) ->
  contains_itself (heap s) hd \/ shape_at (heap s) hd SAny.
Proof.
  intros E n O o1 o2 o3 text path ep p m q1 q2 R s x hd P Un U Sx. destruct (unwrap_split _ _ _ _ _ _ _ U) as (u & s1 & E1 & Ok1 & E2 & El & Ef).
  pose proof (unwrapped_flags _ _ _ _ _ _ _ _ _ _ False u m q1 s1 P Un (fun f => False_ind _ f) E1 Ok1) as I.
  rewrite <- El, <- Ef in E2.
  destruct (C70_marked m q2 R s1 s x hd (i_keyed _ _ _ I) E2 Sx) as [(b & G & Sh)|[C|(b & G & V)]]; [|now left|].
  - destruct (i_base _ _ _ I _ _ G) as [B _]. destruct (B _ Sh) as (_ & Nr & _). now destruct (Nr hd).
  - right. destruct (i_base _ _ _ I _ _ G) as [_ B]. destruct (B V) as [[]|Sa].
    destruct (mark_fragments_all m R q2 s1 s E2) as (l & E3 & _). destruct (mark_all_good m l s1 _ s (i_keyed _ _ _ I) E3) as [(_ & k & (Rb & _)) _].
    destruct (Rb _ _ G) as (b' & G' & _ & S'). exists b'. split; [exact G'|]. destruct S' as [S'|(f & i & i' & X & _)]; congruence.
Qed.
Print Assumptions C70_parsed_partial.

(** A document without unions and without types of the kind any is parsed and
    unwrapped. Then the recursive shapes stand for types that contain themselves,
    and walking down from any declared type comes to an end. *)
Theorem C70_plain_partial : forall E n O o1 o2 o3 text path ep p m q1 q2 R s x hd,
  parse_string E n O o1 o2 o3 false false text path = (Ok ep, p) -> union_free (heap (p_st p)) -> any_free (heap (p_st p)) ->
  unwrap_shapes m q1 q2 (raml_of p) (p_st p) = (Ok R, s) -> shape_at (heap s) x (SRec hd) -> contains_itself (heap s) hd.
Proof.
  intros E n O o1 o2 o3 text path ep p m q1 q2 R s x hd P Un An U Sx. destruct (unwrap_split _ _ _ _ _ _ _ U) as (u & s1 & E1 & Ok1 & E2 & El & Ef).
  pose proof (unwrapped_flags _ _ _ _ _ _ _ _ _ _ True u m q1 s1 P Un (fun _ => An) E1 Ok1) as I.
  rewrite <- El, <- Ef in E2.
  destruct (C70_marked m q2 R s1 s x hd (i_keyed _ _ _ I) E2 Sx) as [(b & G & Sh)|[C|(b & G & V)]]; [|exact C|]; destruct (i_base _ _ _ I _ _ G) as [B B'].
  - destruct (B _ Sh) as (_ & Nr & _). now destruct (Nr hd).
  - destruct (B' V) as [[]|Sa]. destruct (B _ Sa) as (_ & _ & Na). now destruct (Na Logic.I).
Qed.
Print Assumptions C70_plain_partial.

Theorem C28_parsed_partial : forall E n O o1 o2 o3 text path ep p m q1 q2 R s loc a,
  parse_string E n O o1 o2 o3 false false text path = (Ok ep, p) -> union_free (heap (p_st p)) -> any_free (heap (p_st p)) ->
  unwrap_shapes m q1 q2 (raml_of p) (p_st p) = (Ok R, s) -> In loc q2 -> declared_in R loc a -> finite_descent (heap s) a.
Proof.
  intros E n O o1 o2 o3 text path ep p m q1 q2 R s loc a P Un An U J D. destruct (unwrap_split _ _ _ _ _ _ _ U) as (u & s1 & E1 & Ok1 & E2 & El & Ef).
  pose proof (unwrapped_flags _ _ _ _ _ _ _ _ _ _ True u m q1 s1 P Un (fun _ => An) E1 Ok1) as I.
  rewrite <- El, <- Ef in E2. refine (C28_model m q2 R s1 s (i_keyed _ _ _ I) _ E2 loc a J D).
  intros x b G. destruct (i_base _ _ _ I _ _ G) as [B B']. destruct (b_visited b); [|reflexivity]. exfalso.
  destruct (B' eq_refl) as [[]|Sa]. destruct (B _ Sa) as (_ & _ & Na). now destruct (Na Logic.I).
Qed.
Print Assumptions C28_parsed_partial.

(** * Cases *)

(** The types one step below a type, computed. *)
Definition entries_of (h : list cell) (m : addr) : list addr :=
  match get_props h m with Some l => map (fun kp => p_base (snd kp)) l | None => [] end.
Definition succs (h : list cell) (a : addr) : list addr :=
  match get_base h a with
  | Some b =>
      match b_shape b with
      | Some (SArray f) => match a_items f with Some i => [i] | None => [] end
      | Some (SObject f) => match o_props f with Some m => entries_of h m | None => [] end ++ match o_pprops f with Some m => entries_of h m | None => [] end
      | Some (SUnion sl _) => match get_slice h sl with Some l => l | None => [] end
      | Some (SRec hd) => [hd]
      | _ => []
      end ++ entries_of h (b_fdefs b)
  | None => []
  end.
Lemma in_entries h m l k p : get_props h m = Some l -> In (k, p) l -> In (p_base p) (entries_of h m).
Proof. intros G J. unfold entries_of. rewrite G. apply in_map_iff. exists (k, p). auto. Qed.
Lemma succs_ok h a c : leads h a c -> In c (succs h a).
Proof.
  intros [D|(b & G & Sh)]; [|unfold succs; rewrite G, Sh; now left]. destruct D as [a sh c (b & G & Sh) _ Ch|a b m k p G Gm J].
  - unfold succs. rewrite G, Sh. apply in_or_app. left. destruct Ch as [f i Hi|f ps k p Po J|f ps k p Po J|sl e l m Hl J|hd]; cbn.
    + rewrite Hi. now left.
    + destruct Po as [[_ ->]|(m & Om & Po)]; [destruct J|]. rewrite Om. apply in_or_app. left. exact (in_entries _ _ _ _ _ Po J).
    + destruct Po as [[_ ->]|(m & Om & Po)]; [destruct J|]. rewrite Om. apply in_or_app. right. exact (in_entries _ _ _ _ _ Po J).
    + now rewrite Hl.
    + now left.
  - unfold succs. rewrite G. apply in_or_app. right. exact (in_entries _ _ _ _ _ Gm J).
Qed.
(** The types below [a] are below nothing and are not [a]. *)
Definition shallow_b (h : list cell) (a : addr) : bool :=
  forallb (fun c => negb (Nat.eqb c a) && match succs h c with [] => true | _ => false end) (succs h a).
Lemma shallow_b_ok h a : shallow_b h a = true -> ~ contains_itself h a.
Proof.
  intros H C. unfold contains_itself in C. apply clos_trans_t1n in C. unfold shallow_b in H. rewrite forallb_forall in H.
  inversion C as [y D E|y z D C']; subst.
  - specialize (H _ (succs_ok _ _ _ D)). now rewrite Nat.eqb_refl in H.
  - specialize (H _ (succs_ok _ _ _ D)). apply andb_prop in H. destruct H as [_ H].
    assert (X : exists w, leads h y w) by (destruct C'; eauto). destruct X as (w & X). apply succs_ok in X. destruct (succs h y); [destruct X|discriminate].
Qed.

Definition any_b (h : list cell) : bool :=
  forallb (fun c => match c with CBase b => match b_shape b with Some SAny => false | _ => true end | _ => true end) h.
Lemma any_b_ok h : any_b h = true -> any_free h.
Proof.
  intros H a (b & G & S). unfold any_b in H. rewrite forallb_forall in H. unfold get_base in G.
  destruct (nth_error h a) as [c|] eqn:N; [|discriminate]. apply nth_error_In in N. specialize (H c N). destruct c; try discriminate. injection G as ->. now rewrite S in H.
Qed.

(** The recursive shape found at [x]. *)
Definition rec_at (h : list cell) (x : addr) : option addr :=
  match get_base h x with Some b => match b_shape b with Some (SRec hd) => Some hd | _ => None end | None => None end.
Lemma rec_at_ok h x hd : rec_at h x = Some hd -> shape_at h x (SRec hd).
Proof. unfold rec_at. intros H. destruct (get_base h x) as [b|] eqn:G; [|discriminate]. destruct (b_shape b) as [[]|] eqn:S; try discriminate. injection H as ->. exists b. auto. Qed.

Definition unwrapped1 (d : disk) : res raml * st := unwrap_shapes 40 ["a.raml"] ["a.raml"] (raml_of (snd (parse1 d 40 false false))) (p_st (snd (parse1 d 40 false false))).
Definition good (r : res raml * st) : bool := match fst r with Ok _ => true | _ => false end.
Lemma run_ok d : fst (parse1 d 40 false false) = Ok (ELib 0) -> good (unwrapped1 d) = true ->
  exists p R s, parse1 d 40 false false = (Ok (ELib 0), p) /\ unwrap_shapes 40 ["a.raml"] ["a.raml"] (raml_of p) (p_st p) = (Ok R, s)
    /\ p = snd (parse1 d 40 false false) /\ s = snd (unwrapped1 d) /\ fst (unwrapped1 d) = Ok R.
Proof.
  intros H G. unfold good, unwrapped1 in *. destruct (parse1 d 40 false false) as [q p]. cbn [fst snd] in *. subst q.
  destruct (unwrap_shapes 40 ["a.raml"] ["a.raml"] (raml_of p) (p_st p)) as [[R| | |] s] eqn:U; try discriminate G. exists p, R, s. auto.
Qed.
Lemma union_at d p : p = snd (parse1 d 40 false false) -> no_union (heap (p_st (snd (parse1 d 40 false false)))) = true -> union_free (heap (p_st p)).
Proof. intros -> H. exact (no_union_ok _ H). Qed.
Lemma any_at d p : p = snd (parse1 d 40 false false) -> any_b (heap (p_st (snd (parse1 d 40 false false)))) = true -> any_free (heap (p_st p)).
Proof. intros -> H. exact (any_b_ok _ H). Qed.
Lemma found_at d s x hd : s = snd (unwrapped1 d) -> rec_at (heap (snd (unwrapped1 d))) x = Some hd -> shape_at (heap s) x (SRec hd).
Proof. intros -> H. exact (rec_at_ok _ _ _ H). Qed.
Lemma not_itself d s hd : s = snd (unwrapped1 d) -> shallow_b (heap (snd (unwrapped1 d))) hd = true -> ~ contains_itself (heap s) hd.
Proof. intros -> H. exact (shallow_b_ok _ _ H). Qed.
Definition base_b (r : res raml) : bool :=
  match r with
  | Ok R => match oget "a.raml" (r_frags R), nth_error (r_libs R) 0 with Some (FLib 0), Some lib => match oget "Base" (l_types lib) with Some _ => true | None => false end | _, _ => false end
  | _ => false
  end.
Lemma base_b_ok R : base_b (Ok R) = true -> exists a, declared_in R "a.raml" a.
Proof.
  unfold base_b. intros X. destruct (oget "a.raml" (r_frags R)) as [[[|]| |]|] eqn:F; try discriminate X. destruct (nth_error (r_libs R) 0) as [lib|] eqn:N; [|discriminate X].
  destruct (oget "Base" (l_types lib)) as [a|] eqn:G; [|discriminate X]. exists a. refine (di_type R "a.raml" a 0 lib "Base" F N _). exact (Pipeline_proofs.oget_In _ _ _ G).
Qed.
Lemma base_at d R : fst (unwrapped1 d) = Ok R -> base_b (fst (unwrapped1 d)) = true -> exists a, declared_in R "a.raml" a.
Proof. intros ->. apply base_b_ok. Qed.

Lemma plain1 d n ep p m q1 q2 R s x hd : parse1 d n false false = (Ok ep, p) -> union_free (heap (p_st p)) -> any_free (heap (p_st p)) ->
  unwrap_shapes m q1 q2 (raml_of p) (p_st p) = (Ok R, s) -> shape_at (heap s) x (SRec hd) -> contains_itself (heap s) hd.
Proof. exact (C70_plain_partial (on_disk d) n exO ["a.raml"] ["a.raml"] ["a.raml"] text46 "a.raml" ep p m q1 q2 R s x hd). Qed.
Lemma finite1 d n ep p m q1 q2 R s loc a : parse1 d n false false = (Ok ep, p) -> union_free (heap (p_st p)) -> any_free (heap (p_st p)) ->
  unwrap_shapes m q1 q2 (raml_of p) (p_st p) = (Ok R, s) -> In loc q2 -> declared_in R loc a -> finite_descent (heap s) a.
Proof. exact (C28_parsed_partial (on_disk d) n exO ["a.raml"] ["a.raml"] ["a.raml"] text46 "a.raml" ep p m q1 q2 R s loc a). Qed.
Lemma parsed1 d n ep p : parse1 d n false false = (Ok ep, p) -> parse_string (on_disk d) n exO ["a.raml"] ["a.raml"] ["a.raml"] false false text46 "a.raml" = (Ok ep, p).
Proof. exact (fun H => H). Qed.

(** The library [d46q] has no union and no type any; its type Base contains itself
    in the optional property [next]. The model has one recursive shape, which stands
    for that type. *)
Example C70_parsed_case : exists ep p R s x hd, parse1 d46q 40 false false = (Ok ep, p) /\ union_free (heap (p_st p)) /\ any_free (heap (p_st p))
  /\ unwrap_shapes 40 ["a.raml"] ["a.raml"] (raml_of p) (p_st p) = (Ok R, s) /\ shape_at (heap s) x (SRec hd) /\ contains_itself (heap s) hd
  /\ exists a, declared_in R "a.raml" a /\ finite_descent (heap s) a.
Proof.
  assert (G1 : fst (parse1 d46q 40 false false) = Ok (ELib 0)) by (vm_compute; reflexivity).
  assert (G2 : good (unwrapped1 d46q) = true) by (vm_compute; reflexivity).
  destruct (run_ok d46q G1 G2) as (p & R & s & P & U & Ep & Es & Ef).
  assert (Un : union_free (heap (p_st p))) by (apply (union_at d46q p Ep); vm_compute; reflexivity).
  assert (An : any_free (heap (p_st p))) by (apply (any_at d46q p Ep); vm_compute; reflexivity).
  assert (Sx : shape_at (heap s) 64 (SRec 29)) by (apply (found_at d46q s 64 29 Es); vm_compute; reflexivity).
  assert (D : exists a, declared_in R "a.raml" a) by (apply (base_at d46q R Ef); vm_compute; reflexivity).
  clear Ep Es Ef. destruct D as (a & D). exists (ELib 0), p, R, s, 64, 29.
  split; [exact P|]. split; [exact Un|]. split; [exact An|]. split; [exact U|]. split; [exact Sx|].
  split; [exact (plain1 _ _ _ _ _ _ _ _ _ _ _ P Un An U Sx)|].
  exists a. split; [exact D|]. exact (finite1 _ _ _ _ _ _ _ _ _ _ _ P Un An U (or_introl eq_refl) D).
Qed.

(** A type of the kind any from which two types inherit. It contains nothing, and
    the properties that use it become recursive shapes:
<<
    a.raml: types: P: any
                   C: {type: P, description: x}
                   C2: {type: P, displayName: x}
                   O: {properties: {x: P, y: C}}
>>
    The parent keeps its ShapeVisited flag (/repo/shape.go:156). *)
Definition d70 : disk :=
  [("a.raml", lib_head,
     mp [("types", mp [("P", sc "any"); ("C", mp [("type", sc "P"); ("description", sc "x")]); ("C2", mp [("type", sc "P"); ("displayName", sc "x")]);
                       ("O", mp [("properties", mp [("x", sc "P"); ("y", sc "C")])])])])].
Theorem C70_any_refuted : exists E n O o text path ep p m q R s x hd,
  parse_string E n O o o o false false text path = (Ok ep, p) /\ union_free (heap (p_st p))
  /\ unwrap_shapes m q q (raml_of p) (p_st p) = (Ok R, s) /\ shape_at (heap s) x (SRec hd) /\ ~ contains_itself (heap s) hd.
Proof.
  assert (G1 : fst (parse1 d70 40 false false) = Ok (ELib 0)) by (vm_compute; reflexivity).
  assert (G2 : good (unwrapped1 d70) = true) by (vm_compute; reflexivity).
  destruct (run_ok d70 G1 G2) as (p & R & s & P & U & Ep & Es & _).
  exists (on_disk d70), 40, exO, ["a.raml"], text46, "a.raml", (ELib 0), p, 40, ["a.raml"], R, s, 28, 3.
  split; [exact (parsed1 _ _ _ _ P)|]. split; [apply (union_at d70 p Ep); vm_compute; reflexivity|]. split; [exact U|].
  split; [apply (found_at d70 s 28 3 Es); vm_compute; reflexivity|]. apply (not_itself d70 s 3 Es). vm_compute. reflexivity.
Qed.
Print Assumptions C70_any_refuted.

(** A property whose type is a union and which a child type narrows to one member:
<<
    a.raml: types: O: {properties: {x: string | integer}}
                   P: {type: O, properties: {x: string}}
>>
    The union keeps its flag (/repo/shape.go:168), and the property of [O] becomes a
    recursive shape. *)
Definition d70u : disk :=
  [("a.raml", lib_head,
     mp [("types", mp [("O", mp [("properties", mp [("x", sc "string | integer")])]); ("P", mp [("type", sc "O"); ("properties", mp [("x", sc "string")])])])])].
Theorem C70_union_refuted : exists E n O o text path ep p m q R s x hd,
  parse_string E n O o o o false false text path = (Ok ep, p) /\ any_free (heap (p_st p))
  /\ unwrap_shapes m q q (raml_of p) (p_st p) = (Ok R, s) /\ shape_at (heap s) x (SRec hd) /\ ~ contains_itself (heap s) hd.
Proof.
  assert (G1 : fst (parse1 d70u 40 false false) = Ok (ELib 0)) by (vm_compute; reflexivity).
  assert (G2 : good (unwrapped1 d70u) = true) by (vm_compute; reflexivity).
  destruct (run_ok d70u G1 G2) as (p & R & s & P & U & Ep & Es & _).
  exists (on_disk d70u), 40, exO, ["a.raml"], text46, "a.raml", (ELib 0), p, 40, ["a.raml"], R, s, 35, 8.
  split; [exact (parsed1 _ _ _ _ P)|]. split; [apply (any_at d70u p Ep); vm_compute; reflexivity|]. split; [exact U|].
  split; [apply (found_at d70u s 35 8 Es); vm_compute; reflexivity|]. apply (not_itself d70u s 8 Es). vm_compute. reflexivity.
Qed.
Print Assumptions C70_union_refuted.
