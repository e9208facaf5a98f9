(** What a parsed document declares is found again after UnwrapShapes: in its
    library, in the index, and as the type of an annotation (C27, C53, C54). *)
From Coq Require Import ZArith List String Bool Lia.
From Verif Require Import Base Scalars Heap Names Yaml Pipeline Spec_Model Spec_Pipeline Decode Parse Spec_Decode Spec_Calm Spec_Mark
  Heap_lemmas Label_proofs Pipeline_proofs Unwrap_flags Unwrap_same Props_Parse Props_Fresh Props_Quiet Props_Decode Props_Back Props_Pipeline.
From Verif Require Parse_fresh Yaml_proofs.
Import ListNotations.
Open Scope string_scope.
Open Scope list_scope.
Open Scope nat_scope.

(** * C54: the annotations of a model after UnwrapShapes *)

(** [e'] is the annotation [e], and its type is the one the index has for the
    name and the file of the type of [e]. *)
Definition looked_up (s : st) (i : index) (e e' : ext) : Prop :=
  e_name e' = e_name e /\ e_loc e' = e_loc e /\ e_value e' = e_value e
  /\ exists a b, e_def e = Some a /\ get_base (heap s) a = Some b /\ index_get (b_loc b) (b_name b) i = Ok (e_def e').

Lemma exts_looked_up i l : forall s ok l' s', unwrap_exts i l s = (Ok (ok, l'), s') -> ok = true -> Forall2 (looked_up s i) l l'.
Proof.
  induction l as [|e l IH]; intros s ok l' s' H Q; cbn [unwrap_exts] in H; [injection H as _ <- _; constructor|].
  destruct (e_def e) as [a|] eqn:D; [|discriminate]. apply bind_inv in H. destruct H as (b & s1 & G & H). apply rd_ok in G. destruct G as [-> G].
  apply bind_inv in H. destruct H as ([ok1 l1] & s2 & X & H). cbn [fst snd] in H.
  destruct (index_get (b_loc b) (b_name b) i) as [o| | |] eqn:Ix; injection H as <- <- _; try discriminate.
  constructor; [|exact (IH _ _ _ _ X Q)]. repeat (split; [reflexivity|]). exists a, b. auto.
Qed.

(** UnwrapShapes keeps the number and the order of the annotations, and the name,
    the location and the value of each. *)
Theorem C54_unwrapped : forall n o1 o2 R s R' s', unwrap_shapes n o1 o2 R s = (Ok R', s') ->
  Forall2 (looked_up s' (r_annots R')) (r_exts R) (r_exts R').
Proof.
  intros n o1 o2 R s R' s' H. unfold unwrap_shapes in H. apply bind_inv in H. destruct H as ([] & s0 & _ & H).
  apply bind_inv in H. destruct H as (u & s1 & _ & H). destruct (u_ok u); [|discriminate]. cbn [negb] in H.
  apply bind_inv in H. destruct H as ([] & s2 & _ & H). apply bind_inv in H. destruct H as ([ok l] & s3 & E3 & H). cbn [fst snd] in H.
  destruct ok; [|discriminate]. cbn [negb] in H. injection H as <- <-. cbn [r_annots r_exts].
  pose proof (unwrap_exts_same (u_annots u) (r_exts R) s2) as Q. unfold Heap_lemmas.after in Q. rewrite E3 in Q. cbn [snd] in Q. subst s3.
  exact (exts_looked_up _ _ _ _ _ _ E3 eq_refl).
Qed.
Print Assumptions C54_unwrapped.

(** * Parsed libraries *)

Lemma filled_keys {A} (Q : string -> ynode -> string -> A -> Prop) l m : filled Q l m -> NoDup (map fst m).
Proof. induction 1; [constructor|]. now apply Yaml_proofs.oset_keys. Qed.
Lemma filled_in {A} (Q : string -> ynode -> string -> A -> Prop) l m k x : filled Q l m -> In (k, x) m -> exists key nd, Q key nd k x.
Proof.
  induction 1 as [|l m key nd name y F IH Hq]; intros J; [destruct J|]. apply Yaml_proofs.oset_in in J; [|exact (filled_keys _ _ _ F)].
  destruct J as [[-> ->]|[_ J]]; [eauto|auto].
Qed.

(** Every entry of [l] has the name it is declared under, and the location. *)
Definition placed (s : st) (loc : string) (l : omap addr) : Prop :=
  forall k a, In (k, a) l -> exists b, get_base (heap s) a = Some b /\ b_name b = k /\ b_loc b = loc.

Lemma declared_placed E p loc k doc m : declares_types E p loc k doc m -> NoDup (map fst m) /\ placed (p_st p) loc m.
Proof.
  intros D. split; [exact (filled_keys _ _ _ D)|]. intros name a J. destruct (filled_in _ _ _ _ _ D J) as (key & nd & <- & Q & Hq & HQ).
  destruct (HQ _ _ _ _ Hq) as (b & G & Dc & _). exists b. split; [exact G|]. split; [exact (dc_name _ _ _ _ _ _ _ Dc)|exact (dc_loc _ _ _ _ _ _ _ Dc)].
Qed.

Section Parsed.
Variable E : denv.
Variables (n : nat) (O : oracle) (o1 o2 o3 : list string) (text path : string) (ep : entry_point) (p : pst).
Hypothesis P : parse_string E n O o1 o2 o3 false false text path = (Ok ep, p).

Lemma lib_placed loc l lib : oget loc (p_frags p) = Some (FLib l) -> nth_error (p_libs p) l = Some lib ->
  NoDup (map fst (l_types lib)) /\ NoDup (map fst (l_annots lib)) /\ placed (p_st p) loc (l_types lib) /\ placed (p_st p) loc (l_annots lib).
Proof.
  intros F N. destruct (C62_as_written _ _ _ _ _ _ _ _ _ _ P loc _ F) as (t & _ & doc & lib' & _ & N' & T & A).
  assert (lib' = lib) by congruence. subst lib'. destruct (declared_placed _ _ _ _ _ _ T), (declared_placed _ _ _ _ _ _ A). auto.
Qed.

Hypothesis Un : union_free (heap (p_st p)).
Hypothesis An : any_free (heap (p_st p)).
Variables (m : nat) (q1 q2 : list string) (R : raml) (s : st).
Hypothesis U : unwrap_shapes m q1 q2 (raml_of p) (p_st p) = (Ok R, s).

Lemma parsed_quiet : quiet (heap (p_st p)).
Proof.
  destruct (Parse_fresh.parse_fresh _ _ _ _ _ _ _ _ _ _ P) as [(_ & _ & _ & Fr) _]. split; [|exact (Parse_fresh.parse_keyed _ _ _ _ _ _ _ _ _ _ P)].
  intros x b G. destruct (Fr x b G) as (V & _ & N). split.
  - intros sh Sh. split; [intros sl e ->; exact (Un _ _ _ _ G Sh)|]. split; [intros hd ->; exact (N hd Sh)|]. intros _ ->. apply (An x). exists b. auto.
  - rewrite V. discriminate.
Qed.

Lemma kept_model : r_libs R = p_libs p /\ r_frags R = p_frags p.
Proof.
  destruct (unwrap_split _ _ _ _ _ _ _ U) as (u & s1 & E1 & Ok1 & _ & -> & ->). refine (fragments_same _ _ _ _ _ _ _ E1 Ok1). exact parsed_quiet.
Qed.

Hypothesis Nd : NoDup q1.
Lemma index_keeps loc l lib : In loc q1 -> oget loc (p_frags p) = Some (FLib l) -> nth_error (p_libs p) l = Some lib ->
  (forall k a, In (k, a) (l_types lib) -> index_get loc k (r_types R) = Ok (Some a))
  /\ (forall k a, In (k, a) (l_annots lib) -> index_get loc k (r_annots R) = Ok (Some a)).
Proof.
  intros J F N. destruct (lib_placed _ _ _ F N) as (N1 & N2 & P1 & P2).
  assert (Main : (exists k a, In (k, a) (l_types lib) \/ In (k, a) (l_annots lib)) ->
     (forall k a, In (k, a) (l_types lib) -> index_get loc k (r_types R) = Ok (Some a))
     /\ (forall k a, In (k, a) (l_annots lib) -> index_get loc k (r_annots R) = Ok (Some a))).
  { intros (k & a & K). apply (unwrap_shapes_indexed m q1 q2 (raml_of p) (p_st p) R s loc l lib U Nd J F N); auto.
    - intros loc' F'. destruct (lib_placed _ _ _ F' N) as (_ & _ & P1' & P2').
      destruct K as [K|K]; [destruct (P1 _ _ K) as (b & G & _ & <-), (P1' _ _ K) as (b' & G' & _ & <-)|destruct (P2 _ _ K) as (b & G & _ & <-), (P2' _ _ K) as (b' & G' & _ & <-)];
        congruence.
    - intros k' a' K'. destruct (P1 _ _ K') as (b & G & Q & _). eauto.
    - intros k' a' K'. destruct (P2 _ _ K') as (b & G & Q & _). eauto.
    - destruct kept_model as [-> _]. exact N. }
  destruct (l_types lib) as [|[k a] lt] eqn:Lt; [destruct (l_annots lib) as [|[k a] la] eqn:La|].
  - split; intros k a [].
  - apply Main. exists k, a. right. now left.
  - apply Main. exists k, a. left. now left.
Qed.
End Parsed.

(** * C27 *)

(** A document without unions and without types of the kind any is parsed and
    unwrapped. Each file has the types it had, each library the same ones under
    the same names: they are changed in place. *)
Theorem C27_parsed_partial : forall E n O o1 o2 o3 text path ep p m q1 q2 R s,
  parse_string E n O o1 o2 o3 false false text path = (Ok ep, p) -> union_free (heap (p_st p)) -> any_free (heap (p_st p)) ->
  unwrap_shapes m q1 q2 (raml_of p) (p_st p) = (Ok R, s) -> r_libs R = p_libs p /\ r_frags R = p_frags p.
Proof. intros E n O o1 o2 o3 text path ep p m q1 q2 R s P Un An U. exact (kept_model _ _ _ _ _ _ _ _ _ _ P Un An _ _ _ _ _ U). Qed.
Print Assumptions C27_parsed_partial.

(** * C53 *)

(** And looking up a type or an annotation type of a library by file and name
    gives the type of the library. *)
Theorem C53_parsed_partial : forall E n O o1 o2 o3 text path ep p m q1 q2 R s loc l lib,
  parse_string E n O o1 o2 o3 false false text path = (Ok ep, p) -> union_free (heap (p_st p)) -> any_free (heap (p_st p)) ->
  unwrap_shapes m q1 q2 (raml_of p) (p_st p) = (Ok R, s) -> NoDup q1 -> In loc q1 ->
  oget loc (r_frags R) = Some (FLib l) -> nth_error (r_libs R) l = Some lib ->
  (forall k a, In (k, a) (l_types lib) -> index_get loc k (r_types R) = Ok (Some a))
  /\ (forall k a, In (k, a) (l_annots lib) -> index_get loc k (r_annots R) = Ok (Some a)).
Proof.
  intros E n O o1 o2 o3 text path ep p m q1 q2 R s loc l lib P Un An U Nd J F N.
  destruct (kept_model _ _ _ _ _ _ _ _ _ _ P Un An _ _ _ _ _ U) as [El Ef]. rewrite El in N. rewrite Ef in F.
  exact (index_keeps _ _ _ _ _ _ _ _ _ _ P Un An _ _ _ _ _ U Nd loc l lib J F N).
Qed.
Print Assumptions C53_parsed_partial.

(** * C54 *)

(** And an annotation whose type is an annotation type of a library keeps its
    type. *)
Definition annotation_type (p : pst) (loc : string) (a : addr) : Prop :=
  exists l lib k, oget loc (p_frags p) = Some (FLib l) /\ nth_error (p_libs p) l = Some lib /\ In (k, a) (l_annots lib).
Theorem C54_kept_partial : forall E n O o1 o2 o3 text path ep p m q1 q2 R s,
  parse_string E n O o1 o2 o3 false false text path = (Ok ep, p) -> union_free (heap (p_st p)) -> any_free (heap (p_st p)) ->
  unwrap_shapes m q1 q2 (raml_of p) (p_st p) = (Ok R, s) -> NoDup q1 ->
  Forall2 (fun e e' => e_name e' = e_name e /\ e_loc e' = e_loc e /\ e_value e' = e_value e
     /\ forall loc a, In loc q1 -> annotation_type p loc a -> e_def e = Some a -> e_def e' = Some a) (p_exts p) (r_exts R).
Proof.
  intros E n O o1 o2 o3 text path ep p m q1 q2 R s P Un An U Nd. pose proof (C54_unwrapped _ _ _ _ _ _ _ U) as L. cbn [raml_of r_exts] in L.
  assert (Lb : labels (p_st p) s).
  { destruct (unwrap_shapes_inv _ _ _ _ _ _ _ U) as (u & s1 & E1 & _ & B & _). destruct (unwrap_fragments_other _ _ _ _ _ _ E1) as (B1 & _).
    refine (labels_trans _ s1 _ _ B). intros x c Hc. exact (B1 x c Hc). }
  induction L as [|e e' l l' (A1 & A2 & A3 & a & b & D & G & Ix) L IH]; constructor; [|exact IH]. repeat (split; [assumption|]).
  intros loc x J (k & lib & name & F & N & K) Dx. assert (x = a) by congruence. subst x.
  destruct (lib_placed _ _ _ _ _ _ _ _ _ _ P _ _ _ F N) as (_ & _ & _ & P2). destruct (P2 _ _ K) as (b0 & G0 & Qn & Ql).
  destruct (labels_base _ _ _ _ Lb G0) as (b' & G' & _ & Qn' & Ql'). rewrite G in G'. injection G' as <-.
  destruct (index_keeps _ _ _ _ _ _ _ _ _ _ P Un An _ _ _ _ _ U Nd loc k lib J F N) as [_ Ka]. specialize (Ka _ _ K).
  rewrite Ql', Ql, Qn', Qn, Ka in Ix. injection Ix as <-. reflexivity.
Qed.
Print Assumptions C54_kept_partial.

(** * Cases *)

Lemma found1 d n ep p m q1 q2 R s : parse1 d n false false = (Ok ep, p) -> union_free (heap (p_st p)) -> any_free (heap (p_st p)) ->
  unwrap_shapes m q1 q2 (raml_of p) (p_st p) = (Ok R, s) -> NoDup q1 -> r_libs R = p_libs p /\ r_frags R = p_frags p /\
  Forall2 (fun e e' => e_name e' = e_name e /\ e_loc e' = e_loc e /\ e_value e' = e_value e
     /\ forall loc a, In loc q1 -> annotation_type p loc a -> e_def e = Some a -> e_def e' = Some a) (p_exts p) (r_exts R).
Proof.
  intros P Un An U Nd. pose proof (parsed1 _ _ _ _ P) as P'. destruct (C27_parsed_partial _ _ _ _ _ _ _ _ _ _ _ _ _ _ _ P' Un An U) as [A B].
  split; [exact A|]. split; [exact B|]. exact (C54_kept_partial _ _ _ _ _ _ _ _ _ _ _ _ _ _ _ P' Un An U Nd).
Qed.

(** The annotation of the first type and what it refers to. *)
Definition noted_b (p : pst) : bool :=
  match p_exts p, oget "a.raml" (p_frags p), nth_error (p_libs p) 0 with
  | [e], Some (FLib 0), Some lib =>
      match e_def e, oget "note" (l_annots lib) with Some a, Some b => Nat.eqb a b | _, _ => false end
  | _, _, _ => false
  end.
Lemma noted_b_ok p : noted_b p = true -> exists e a, p_exts p = [e] /\ annotation_type p "a.raml" a /\ e_def e = Some a.
Proof.
  unfold noted_b. intros H. destruct (p_exts p) as [|e [|]]; try discriminate H. destruct (oget "a.raml" (p_frags p)) as [[[|]| |]|] eqn:F; try discriminate H.
  destruct (nth_error (p_libs p) 0) as [lib|] eqn:N; [|discriminate H]. destruct (e_def e) as [a|] eqn:D; [|discriminate H].
  destruct (oget "note" (l_annots lib)) as [b|] eqn:G; [|discriminate H]. apply Nat.eqb_eq in H. subst b. exists e, a. split; [reflexivity|]. split; [|exact D].
  exists 0, lib, "note". split; [exact F|]. split; [exact N|]. exact (oget_In _ _ _ G).
Qed.
Lemma noted_at d p : p = snd (parse1 d 40 false false) -> noted_b (snd (parse1 d 40 false false)) = true ->
  exists e a, p_exts p = [e] /\ annotation_type p "a.raml" a /\ e_def e = Some a.
Proof. intros -> H. exact (noted_b_ok _ H). Qed.

(** The library [d46q] with its annotation [(note): hot]. *)
Example C54_kept_case : exists ep p R s e a, parse1 d46q 40 false false = (Ok ep, p) /\ union_free (heap (p_st p)) /\ any_free (heap (p_st p))
  /\ unwrap_shapes 40 ["a.raml"] ["a.raml"] (raml_of p) (p_st p) = (Ok R, s) /\ r_libs R = p_libs p
  /\ p_exts p = [e] /\ annotation_type p "a.raml" a /\ e_def e = Some a
  /\ exists e', r_exts R = [e'] /\ e_def e' = Some a.
Proof.
  assert (G1 : fst (parse1 d46q 40 false false) = Ok (ELib 0)) by (vm_compute; reflexivity).
  assert (G2 : Props_Back.good (unwrapped1 d46q) = true) by (vm_compute; reflexivity).
  destruct (run_ok d46q G1 G2) as (p & R & s & P & U & Ep & Es & Ef).
  assert (Un : union_free (heap (p_st p))) by (apply (union_at d46q p Ep); vm_compute; reflexivity).
  assert (An : any_free (heap (p_st p))) by (apply (any_at d46q p Ep); vm_compute; reflexivity).
  assert (N : exists e a, p_exts p = [e] /\ annotation_type p "a.raml" a /\ e_def e = Some a) by (apply (noted_at d46q p Ep); vm_compute; reflexivity).
  clear Ep Es Ef. destruct N as (e & a & Ne & Na & Nd).
  destruct (found1 _ _ _ _ _ _ _ _ _ P Un An U) as (A & _ & B); [repeat constructor; intros []|].
  exists (ELib 0), p, R, s, e, a. repeat (split; [assumption|]). rewrite Ne in B. inversion B as [|x e' l l' (_ & _ & _ & K) L Q1 Q2]; subst. inversion L; subst.
  exists e'. split; [reflexivity|]. exact (K "a.raml" a (or_introl eq_refl) Na Nd).
Qed.
