(** Schemas are schemas (C86). *)
From Coq Require Import ZArith List String Bool Ascii Lia.
From Coq Require Import Floats.SpecFloat.
From Verif Require Import Base Scalars Heap Schema Convert Spec_Validate Spec_Schema Spec_Describe Spec_Shown Spec_Meta.
From Verif Require Import Convert_proofs.
From Verif Require Import Props_Shown.
Import ListNotations.
Open Scope string_scope.
Open Scope list_scope.
Open Scope Z_scope.

Lemma inside_down s t u : inside s t -> In u (below_schema t) -> inside s u.
Proof. intros I B. induction I; [eapply in_below; [exact B|constructor]|eapply in_below; eauto]. Qed.

Lemma natural_none : natural None.
Proof. intros z Q. discriminate. Qed.

Lemma kw0_good : good_words kw0.
Proof. constructor; cbn; auto using natural_none; [discriminate|constructor]. Qed.

Lemma required_in l r : required_of l r -> forall k, In k r -> In k (map fst l).
Proof. induction 1; cbn; intros q I; auto. destruct I as [->|I]; auto. Qed.
Lemma required_distinct l r : required_of l r -> NoDup (map fst l) -> NoDup r.
Proof.
  induction 1; cbn; intros N; auto; inversion N; subst; auto. constructor; auto.
  intros I. match goal with H : ~ In _ _ |- _ => apply H end. eapply required_in; eauto.
Qed.

Lemma forall2_right {A B} (R : A -> B -> Prop) l m y : Forall2 R l m -> In y m -> exists x, In x l /\ R x y.
Proof. induction 1; cbn; [tauto|]. intros [->|I]; [eauto|]. destruct (IHForall2 I) as (x0 & ? & ?). eauto. Qed.

Lemma stored_in {A} (l m : list (string * A)) : stored l m -> forall x, In x m -> In x l.
Proof.
  induction 1 as [| |l k v m1 w m2 S IH]; cbn; intros x I; auto; rewrite in_app_iff in *.
  - destruct I as [I|[<-|[]]]; [left; auto|right; now left].
  - destruct I as [I|[<-|I]]; [left; apply IH; rewrite in_app_iff; auto|right; now left|left; apply IH; rewrite in_app_iff; right; now right].
Qed.

Lemma same_entry {A} (d : list (string * A)) k x y : NoDup (map fst d) -> In (k, x) d -> In (k, y) d -> x = y.
Proof.
  induction d as [|[k' z] d IH]; cbn; [tauto|]. intros N [P|P] [Q|Q]; inversion N; subst; auto.
  - congruence.
  - injection P as -> ->. exfalso. match goal with H : ~ In _ _ |- _ => apply H end. now apply (in_map fst) in Q.
  - injection Q as -> ->. exfalso. match goal with H : ~ In _ _ |- _ => apply H end. now apply (in_map fst) in P.
Qed.

Section Document.
Variable E : cenv.
Let h := c_heap E.
Variable a : addr.
Hypothesis types : forall x sh, occurs h a x -> shape_at h x sh -> good_type E sh.

(** A schema in the document is that of a type, or comes from a JSON type. *)
Definition made (s : schema) : Prop :=
  (exists x, occurs h a x /\ shown E x s)
  \/ exists raw u, good_schema (c_json E raw) /\ inside (c_json E raw) u /\ s = recast u.

Lemma words_good b (addl : option bool) ty en mult hi lo maxl minl pat maxi mini uniq maxp minp req enc media fmt :
  In ty [""; "array"; "boolean"; "integer"; "null"; "number"; "object"; "string"] -> (forall m, mult = Some m -> positive m) ->
  natural maxl -> natural minl -> natural maxi -> natural mini -> natural maxp -> natural minp -> NoDup req ->
  good_words (written b addl ty en mult hi lo maxl minl pat maxi mini uniq maxp minp req enc media fmt).
Proof. intros. constructor; cbn; auto using natural_none. Qed.

Lemma scalar_good b sh k : scalar_words b sh k -> good_type E sh -> good_words k.
Proof.
  intros W G. destruct W; cbn in G; apply words_good; try tauto; auto using natural_none; try (cbn; tauto); try discriminate; try apply NoDup_nil.
  - intros m Q. destruct (if_mult f) as [x|]; [|discriminate]. injection Q as <-. now apply G.
  - intros m Q. destruct (nf_mult f) as [x|]; [|discriminate]. injection Q as <-. now apply G.
Qed.

Lemma made_good s : made s -> good_words (keywords s).
Proof.
  intros [(x & Oc & Sh)|(raw & u & G & I & ->)]; [|rewrite recast_keywords; now apply G].
  destruct Sh.
  - eapply scalar_good; eauto. eapply types; eauto. eexists; eauto.
  - assert (G : good_type E (SArray f)) by (eapply types; eauto; eexists; eauto). destruct G.
    apply words_good; auto using natural_none; try (cbn; tauto); try discriminate. constructor.
  - assert (G : good_type E (SObject f)) by (eapply types; eauto; eexists; eauto). destruct G as (G1 & G2 & G3).
    apply words_good; auto using natural_none; try (cbn; tauto); try discriminate.
    eapply required_distinct; eauto. unfold map_of in *. destruct (o_props f) as [m|], l as [l|]; try contradiction; [eapply G3; eauto|constructor].
  - apply words_good; auto using natural_none; try (cbn; tauto); try discriminate. constructor.
  - constructor; cbn; auto using natural_none; [discriminate|constructor].
  - assert (G : good_type E (SJSON raw)) by (eapply types; eauto; eexists; eauto). cbn in G.
    pose proof (G _ (in_refl _)) as W. rewrite <- recast_keywords in W.
    match goal with H : recast _ = _ |- _ => rewrite H in W end. cbn in W. destruct W. constructor; auto.
  - apply kw0_good.
Qed.

Lemma facets_made x b fl xd : occurs h a x -> get_base h x = Some b -> (forall hd, b_shape b <> Some (SRec hd)) -> get_props h (b_fdefs b) = Some fl ->
  Spec_Describe.listed (fun kp ks => fst kp = fst ks /\ shown E (p_base (snd kp)) (snd ks)) fl xd ->
  forall t, In t (map snd (entries xd)) -> made t.
Proof.
  intros Oc G N F (L & _) t I. apply in_map_iff in I as ((k & u) & <- & I). destruct (forall2_right _ _ _ _ L I) as ((k' & p) & I' & _ & S).
  left. exists (p_base p). split; auto. eapply oc_visit; eauto. eapply vi_facet; eauto.
Qed.

Lemma below_made s t : made s -> In t (below_schema s) -> t = Null \/ made t.
Proof.
  intros [(x & Oc & Sh)|(raw & u & G & I & ->)] B.
  2: { destruct (recast_below _ _ B) as (w & B' & ->). right. right. exists raw, w. split; [exact G|]. split; auto. eapply inside_down; eauto. }
  destruct Sh; cbn [below_schema node] in B; repeat rewrite in_app_iff in B; cbn [map In entries app] in B.
  - assert (N : forall hd, b_shape b <> Some (SRec hd)) by (intros hd Q; match goal with H : scalar_words _ _ _ |- _ => destruct H end; congruence).
    repeat (destruct B as [B|B]; try contradiction; auto). right. eapply facets_made; eauto.
  - assert (N : forall hd, b_shape b <> Some (SRec hd)) by congruence.
    assert (Its : s = Null \/ made s).
    { destruct (a_items f) as [i|] eqn:Ai; [right|left; auto]. left. exists i. split; auto. eapply oc_visit; eauto.
      eapply vi_child; [eexists; eauto|congruence|]. now apply ch_items. }
    repeat (destruct B as [B|B]; try contradiction; try (subst; now auto)). right. eapply facets_made; eauto.
  - assert (N : forall hd, b_shape b <> Some (SRec hd)) by congruence.
    assert (At : shape_at h a0 (SObject f)) by (eexists; eauto).
    assert (P1 : forall t, In t (map snd (entries ps)) -> made t).
    { intros u I. apply in_map_iff in I as ((k & w) & <- & I). destruct (forall2_right _ _ _ _ H5 I) as ((k' & p) & I' & _ & S).
      left. exists (p_base p). split; auto. eapply oc_visit; eauto. eapply vi_child; eauto; [congruence|].
      unfold map_of in H1. destruct (o_props f) as [m|] eqn:Om, l as [l|]; try contradiction. eapply (ch_prop h f l); [|exact I']. right. exists m. split; [exact Om|assumption]. }
    assert (P2 : forall t, In t (map snd (entries pps)) -> made t).
    { intros u I. apply in_map_iff in I as ((k & w) & <- & I). apply (stored_in _ _ H7) in I. destruct (forall2_right _ _ _ _ H6 I) as ((k' & p) & I' & _ & S).
      left. exists (p_base p). split; auto. eapply oc_visit; eauto. eapply vi_child; eauto; [congruence|].
      unfold map_of in H2. destruct (o_pprops f) as [m|] eqn:Om, pl as [pl|]; try contradiction. eapply (ch_pprop h f pl); [|exact I']. right. exists m. split; [exact Om|assumption]. }
    repeat (destruct B as [B|B]; try contradiction; try (subst; now auto)). right. eapply facets_made; eauto.
  - assert (N : forall hd, b_shape b <> Some (SRec hd)) by congruence.
    assert (Ms : forall t, In t ms -> made t).
    { intros u I. destruct (forall2_right _ _ _ _ H2 I) as (m & I' & S). left. exists m. split; auto. eapply oc_visit; eauto.
      eapply vi_child; [eexists; eauto|congruence|]. eapply ch_member; eauto. }
    repeat (destruct B as [B|B]; try contradiction; try (subst; now auto)). right. eapply facets_made; eauto.
  - repeat (destruct B as [B|B]; try contradiction; auto).
  - assert (N : forall hd, b_shape b <> Some (SRec hd)) by congruence.
    assert (G : good_type E (SJSON raw)) by (eapply types; eauto; eexists; eauto).
    assert (J : In t (below_schema (recast (c_json E raw))) -> made t).
    { intros I. destruct (recast_below _ _ I) as (w & B' & ->). right. exists raw, w. split; [exact G|]. split; auto. eapply inside_down; [constructor|auto]. }
    rewrite H1 in J. cbn [below_schema] in J. repeat rewrite in_app_iff in J. cbn [In] in J.
    assert (X : In t (map snd (entries xd)) \/ made t) by tauto.
    destruct X as [X|X]; auto. right. eapply facets_made; eauto.
  - contradiction.
Qed.
End Document.

(** * C86 *)

(** The schema made for a type is one by the rules for the keywords of draft-07, if
    the types in it are as [good_type] says. *)
Theorem C86_good_partial : forall n E a S0, convert n true E a = Ok S0 ->
  (forall x sh, occurs (c_heap E) a x -> shape_at (c_heap E) x sh -> good_type E sh) -> good_schema S0.
Proof.
  intros n E a S0 C T t I. destruct (C64_document n E a S0 C) as (b & d & u & G & -> & N & Iu & Su & D).
  assert (Down : forall s t, inside s t -> made E a s -> good_words (keywords t)).
  { clear - T. intros s t I. induction I as [s|s t u B I IH]; intros M; [eapply made_good; eauto|].
    destruct (below_made E a T s t M B) as [->|M']; auto. inversion I as [|? ? ? B' I']; subst; [apply kw0_good|destruct B']. }
  inversion I as [|? w ? B I']; subst; [constructor; cbn; auto using natural_none; [discriminate|constructor]|].
  cbn [below_schema] in B. repeat rewrite in_app_iff in B. cbn [map In entries app] in B.
  assert (W : w = Null \/ In w (map snd d)) by (repeat (destruct B as [B|B]; try contradiction; auto)).
  destruct W as [->|W]; [inversion I' as [|? ? ? B' I'']; subst; [apply kw0_good|destruct B']|].
  apply in_map_iff in W as ((k & s) & <- & W). apply (Down s t I'). left. cbn.
  destruct (D k s W) as [->|(r & hd & hb & Oc & Rc & Gh & _ & Sh)].
  - exists a. split; [constructor|]. now rewrite (same_entry d _ _ _ N W Iu).
  - exists hd. split; auto. eapply oc_head; eauto.
Qed.
Print Assumptions C86_good_partial.

(** ** Documents *)
From Verif Require Import Names Yaml Pipeline Decode Parse
  Props_Validate Props_Parse Props_Fresh Props_Added Props_Convert Props_Convert_limits Props_Documents Props_Idle.

(** A check of the condition, for types without JSON schemas. *)
Definition naturalb (o : option Z) : bool := match o with Some z => Z.leb 0 z | None => true end.
Definition positiveb (o : option float64) : bool := match o with Some f => SFltb (S754_zero false) f | None => true end.
Fixpoint distinctb (l : list string) : bool :=
  match l with [] => true | x :: l' => negb (existsb (String.eqb x) l') && distinctb l' end.
Definition goodb (h : list cell) (c : cell) : bool :=
  match c with
  | CBase b =>
      match b_shape b with
      | Some (SInt f) => positiveb (if_mult f)
      | Some (SNum f) => positiveb (nf_mult f)
      | Some (SStr f) => naturalb (sf_min f) && naturalb (sf_max f)
      | Some (SFile f) => naturalb (ff_min f) && naturalb (ff_max f)
      | Some (SArray f) => naturalb (a_min f) && naturalb (a_max f)
      | Some (SObject f) => naturalb (o_min f) && naturalb (o_max f)
          && match o_props f with Some m => match get_props h m with Some l => distinctb (map fst l) | None => true end | None => true end
      | Some (SJSON _) => false
      | _ => true
      end
  | _ => true
  end.
Lemma naturalb_sound o : naturalb o = true -> natural o.
Proof. intros Q z ->. cbn in Q. lia. Qed.
Lemma distinctb_sound l : distinctb l = true -> NoDup l.
Proof.
  induction l as [|x l IH]; cbn; intros Q; constructor; apply andb_prop in Q as (Q1 & Q2); auto.
  intros I. apply negb_true_iff in Q1. assert (existsb (String.eqb x) l = true) by (apply existsb_exists; exists x; split; auto; apply String.eqb_refl). congruence.
Qed.
Lemma goodb_sound E : forallb (goodb (c_heap E)) (c_heap E) = true -> forall x sh, Spec_Validate.shape_at (c_heap E) x sh -> good_type E sh.
Proof.
  intros F x sh (b & G & S). rewrite forallb_forall in F. unfold get_base in G.
  destruct (nth_error (c_heap E) x) as [[b'| | | |]|] eqn:N; try discriminate. injection G as ->. apply nth_error_In in N.
  specialize (F _ N). cbn in F. rewrite S in F. destruct sh; cbn; auto; try discriminate; repeat apply andb_prop in F as (F & ?); auto using naturalb_sound.
  - intros m Q. now rewrite Q in F.
  - intros m Q. now rewrite Q in F.
  - split; [now apply naturalb_sound|]. split; [now apply naturalb_sound|]. intros m l Q1 Q2. rewrite Q1, Q2 in *. now apply distinctb_sound.
Qed.

(** [T: {n: integer (multipleOf 5), s: string (maxLength 3), l?: T[]}]. *)
Definition done86 (ts : list (string * ynode)) : res entry_point * pst :=
  parse_string (on85 (library_of ts)) 40 exO ["a.raml"] ["a.raml"] ["a.raml"] true true (lib_head ++ "a.raml")%string "a.raml".
Definition ts86 : list (string * ynode) :=
  [("T", mp [properties_of [("n", mp [("type", sc "integer"); ("multipleOf", int "5")]); ("s", mp [("type", sc "string"); ("maxLength", int "3")]); ("l?", sc "T[]")]])].
Definition env86 : cenv := env (heap (p_st (snd (done86 ts86)))).
Example C86_good_case : fst (done86 ts86) = Ok (ELib 0)
  /\ exists a S0, type_in (snd (done86 ts86)) "T" = Some a /\ convert 20 true env86 a = Ok S0 /\ good_schema S0.
Proof.
  split; [vm_compute; reflexivity|].
  assert (W : exists a S0, type_in (snd (done86 ts86)) "T" = Some a /\ convert 20 true env86 a = Ok S0)
    by (do 2 eexists; split; [vm_compute; reflexivity|]; vm_compute; reflexivity).
  destruct W as (a & S0 & T & C). exists a, S0. split; [exact T|]. split; [exact C|]. apply (C86_good_partial _ _ _ _ C). intros x sh _ At.
  eapply goodb_sound; [|exact At]. vm_compute. reflexivity.
Qed.

(** [T: {type: integer, multipleOf: 0}] is parsed, unwrapped, validated and converted
    to a schema with [multipleOf: 0], which is none. *)
Theorem C86_multiple_refuted : exists p a S0, gives85 [("T", mp [("type", sc "integer"); ("multipleOf", int "0")])] p
  /\ type_in p "T" = Some a /\ convert 20 true (env (heap (p_st p))) a = Ok S0 /\ ~ good_schema S0.
Proof.
  assert (W : exists p a S0 t, gives85 [("T", mp [("type", sc "integer"); ("multipleOf", int "0")])] p
    /\ type_in p "T" = Some a /\ convert 20 true (env (heap (p_st p))) a = Ok S0
    /\ definitions S0 = [("T", t)] /\ k_mult (keywords t) = Some (NumF (S754_zero false)))
    by (do 4 eexists; repeat (split; [vm_compute; reflexivity|]); vm_compute; reflexivity).
  destruct W as (p & a & S0 & t & G & T & C & D & M). exists p, a, S0. split; [exact G|]. split; [exact T|]. split; [exact C|].
  clear G T C. intros Q. assert (I : inside S0 t).
  { eapply in_below; [|constructor]. destruct S0; [discriminate|]. cbn in D. subst. now left. }
  pose proof (gw_mult _ (Q t I) _ M) as P. cbn in P. discriminate.
Qed.
Print Assumptions C86_multiple_refuted.
