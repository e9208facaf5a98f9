(** Schemas of derived types (C87). *)
From Coq Require Import ZArith List String Bool Ascii Lia.
From Coq Require Import Floats.SpecFloat.
From Verif Require Import Base Scalars Spec_Scalars Heap Validate Spec_Validate Schema Convert Spec_Schema Convert_meaning_proofs
  Props_Validate Props_Convert Props_Convert_limits.
From Verif Require Import Spec_Subtype.
From Verif Require Props_Subtype.
Import ListNotations.
Open Scope string_scope.
Open Scope list_scope.
Open Scope nat_scope.

(** * C87 *)

(** The types below [a] mean the same in both languages, and have their own names. *)
Definition comparable (O : oracle) (F : string -> string -> bool) (h : list cell) (a : addr) : Prop :=
  (forall x sh, Spec_Schema.occurs h a x -> shape_at h x sh -> same_meaning O F h sh)
  /\ (forall x sh, Spec_Schema.occurs h a x -> shape_at h x sh -> closed_shape h sh)
  /\ names_apart h a.

(** If inheritance of [t] from [src] succeeds, the schema of [t] accepts only
    what the schema of [src] accepts, under the conditions of C14 and C35. *)
Theorem C87_narrower_partial : forall O F pat fmt (U : addr -> Prop) n t src ns s r s' E n1 n2 St Ss v,
  fits pat fmt U (heap s) [] t src ns -> NoDup ns -> (forall x, In x ns -> ~ U x) -> sealed U (heap s) ->
  inherit n t src s = (Ok r, s') -> c_heap E = heap s' ->
  comparable O F (heap s') t -> comparable O F (heap s') src ->
  convert n1 true E t = Ok St -> convert n2 true E src = Ok Ss ->
  oracle_wf O -> json_value v -> value_wf v -> fits_types (heap s') t v -> fits_types (heap s') src v ->
  satisfies O F (definitions St) St v -> satisfies O F (definitions Ss) Ss v.
Proof.
  intros O F pat fmt U n t src ns s r s' E n1 n2 St Ss v Fi N D Se I H (T1 & T2 & T3) (S1 & S2 & S3) Ct Cs Ow J W Ft Fs Sat.
  rewrite <- H in *. apply (C35_same_values_partial O F n1 E t St v T1 T2 T3 Ct J Ft) in Sat.
  apply (C35_same_values_partial O F n2 E src Ss v S1 S2 S3 Cs J Fs).
  destruct (Props_Subtype.C14_structural_partial pat fmt U n t src ns s r s' Fi N D Se I) as (_ & V).
  rewrite H in *. now apply (V O v Ow W Sat).
Qed.
Print Assumptions C87_narrower_partial.

(** ** An instance: integers from 1, and of these those up to 9 *)
Lemma leaf_occurs h a f : shape_at h a (SInt f) -> (forall b, get_base h a = Some b -> get_props h (b_fdefs b) = Some []) ->
  forall x, Spec_Schema.occurs h a x -> x = a.
Proof.
  intros (b & G & S) P x Oc. induction Oc as [|x y Oc IH V|x hd Oc IH (b' & G' & S')]; auto; subst.
  - inversion V as [? sh c (b' & G' & S') N Ch|? b' m k p G' N Gm I]; subst.
    + rewrite G in G'. injection G' as <-. rewrite S in S'. injection S' as <-. inversion Ch.
    + rewrite (P _ G') in Gm. injection Gm as <-. destruct I.
  - congruence.
Qed.
Definition upto (lo hi : option Z) : shape := SInt (IntF lo hi None None None).
Definition s87 : st := St (eempty ++ [eb 1 "P" "integer" (upto (Some 1%Z) None); eb 2 "D" "P" (upto None (Some 9%Z))]) [] 3.
Definition h87 : list cell := heap (snd (inherit 9 4 3 s87)).
Lemma leaf_comparable h a f : shape_at h a (SInt f) -> if_mult f = None -> if_enum f = None ->
  (forall b, get_base h a = Some b -> get_props h (b_fdefs b) = Some []) -> comparable exO exF h a.
Proof.
  intros At M En P. pose proof (leaf_occurs h a f At P) as L. destruct At as (b & G & S).
  assert (Sh : forall x sh, Spec_Schema.occurs h a x -> shape_at h x sh -> sh = SInt f).
  { intros x sh Oc (b' & G' & S'). rewrite (L x Oc) in G'. congruence. }
  split; [|split].
  - intros x sh Oc At. rewrite (Sh x sh Oc At). cbn. split; auto. rewrite En. discriminate.
  - intros x sh Oc At. rewrite (Sh x sh Oc At). split; auto. intros c Ch. inversion Ch.
  - assert (Nm : forall x, named_type h a x -> x = a).
    { intros x [|rr hd Oc (b' & G' & S')]; auto. rewrite (L rr Oc) in G'. congruence. }
    intros x y bx b_y X Y _ _ _. now rewrite (Nm x X), (Nm y Y).
Qed.
Example C87_narrower_case : fits "" None (fun x => x = 3) (heap s87) [] 4 3 [4] /\ NoDup [4] /\ (forall x, In x [4] -> x <> 3)
  /\ sealed (fun x => x = 3) (heap s87) /\ fst (inherit 9 4 3 s87) = Ok 4
  /\ shape_at h87 4 (upto (Some 1%Z) (Some 9%Z)) /\ comparable exO exF h87 4 /\ comparable exO exF h87 3
  /\ (exists St Ss, convert 9 true (env h87) 4 = Ok St /\ convert 9 true (env h87) 3 = Ok Ss)
  /\ oracle_wf exO /\ json_value (GFloat f3) /\ value_wf (GFloat f3) /\ fits_types h87 4 (GFloat f3) /\ fits_types h87 3 (GFloat f3).
Proof.
  assert (Fit : forall a, fits_types h87 a (GFloat f3)).
  { intros a. split; right; [apply av_else; discriminate|]. apply (iv_num f3 3); [right; split; [lia|reflexivity]|]. unfold int_range. lia. }
  split.
  { apply (fits_scalar _ _ _ _ [] 4 3 (upto None (Some 9%Z)) (upto (Some 1%Z) None)); [|intros []|reflexivity|exact I|exact I]. split; [eexists; split; reflexivity|]. eexists. repeat split. }
  split; [repeat constructor; intros []|]. split; [intros x [<-|[]]; discriminate|].
  split.
  { split.
    - intros a b sh -> G Sh. vm_compute in G. injection G as <-. vm_compute in Sh. injection Sh as <-. exact I.
    - intros m l -> G. discriminate.
    - intros m l -> G. discriminate. }
  split; [vm_compute; reflexivity|]. split; [eexists; split; vm_compute; reflexivity|].
  split; [eapply leaf_comparable; [eexists; split; vm_compute; reflexivity|reflexivity|reflexivity|intros b G; vm_compute in G; injection G as <-; reflexivity]|].
  split; [eapply leaf_comparable; [eexists; split; vm_compute; reflexivity|reflexivity|reflexivity|intros b G; vm_compute in G; injection G as <-; reflexivity]|].
  split; [do 2 eexists; split; vm_compute; reflexivity|].
  split; [exact exO_wf|]. split; [constructor; exact I|]. split; [leaf_wf|]. split; apply Fit.
Qed.

(** ** Documents *)
From Verif Require Import Names Yaml Pipeline Decode Parse Props_Parse Props_Fresh Props_Added Props_Documents Props_Idle.

(** [P: {type: integer, multipleOf: 2}], [D: {type: P, multipleOf: 3}]: the schema
    of D accepts 3, that of P does not. *)
Definition ts87 : list (string * ynode) :=
  [("P", mp [("type", sc "integer"); ("multipleOf", int "2")]); ("D", mp [("type", sc "P"); ("multipleOf", int "3")])].
Theorem C87_multiple_refuted : exists p a d Sp Sd, gives85 ts87 p /\ type_in p "P" = Some a /\ type_in p "D" = Some d
  /\ convert 20 true (env (heap (p_st p))) a = Ok Sp /\ convert 20 true (env (heap (p_st p))) d = Ok Sd
  /\ json_value (GFloat f3)
  /\ satisfies exO exF (definitions Sd) Sd (GFloat f3) /\ ~ satisfies exO exF (definitions Sp) Sp (GFloat f3).
Proof.
  assert (W : exists p a d Sp Sd tp kd xd, gives85 ts87 p /\ type_in p "P" = Some a /\ type_in p "D" = Some d
    /\ convert 20 true (env (heap (p_st p))) a = Ok Sp /\ convert 20 true (env (heap (p_st p))) d = Ok Sd
    /\ k_ref (keywords Sp) = "#/definitions/P" /\ oget "P" (definitions Sp) = Some tp
    /\ k_ref (keywords tp) = "" /\ k_mult (keywords tp) = Some (NumF f2)
    /\ k_ref (keywords Sd) = "#/definitions/D" /\ oget "D" (definitions Sd) = Some (node_with kd [] Null None None (xd, None, None))
    /\ k_ref kd = "" /\ k_type kd = "integer" /\ k_enum kd = None /\ k_const kd = GNil /\ k_min kd = None /\ k_max kd = None
    /\ k_mult kd = Some (NumF f3)
    /\ (k_minitems kd = None /\ k_maxitems kd = None /\ k_uniq kd = None)
    /\ (k_minprops kd = None /\ k_maxprops kd = None /\ k_required kd = [] /\ k_addl kd = None)).
  { do 8 eexists. repeat (split; [vm_compute; reflexivity|]). split; vm_compute; repeat split. }
  destruct W as (p & a & d & Sp & Sd & tp & kd & xd & G & Ta & Td & Ca & Cd & Rp & Gp & R1 & Mp & Rd & Gd & R2 & Ty & En & K & Lo & Hi & Mu & (I1 & I2 & I3) & P1 & P2 & P3 & P4).
  exists p, a, d, Sp, Sd. split; [exact G|]. split; [exact Ta|]. split; [exact Td|]. split; [exact Ca|]. split; [exact Cd|].
  clear G Ta Td Ca Cd. split; [constructor; exact I|].
  assert (E3 : float_exact f3 3) by (right; split; [lia|reflexivity]). split.
  - refine (proj2 (sat_ref _ _ "D" _ _ _ Rd Gd) _); [intros ->; discriminate|]. apply satisfies_fold. apply sstep_plain; [repeat split; auto|].
    unfold scalar_keywords. rewrite Ty, En, K, Lo, Hi, Mu. split; [intros _; econstructor; exact E3|]. split; [discriminate|]. split; [congruence|].
    split; [|discriminate]. intros f Q. injection Q as <-. split; [discriminate|]. split; [discriminate|].
    intros b Q. injection Q as <-. exists 3%Z, 3%Z, 1%Z. auto.
  - intros H. refine (_ (proj1 (sat_ref _ _ "P" _ _ _ Rp Gp) H)); [|intros ->; discriminate]. clear H. intros H. apply sat_kw in H; [|exact R1].
    destruct H as (_ & _ & _ & Nu & _). destruct (Nu _ eq_refl) as (_ & _ & M). specialize (M _ Mp). destruct M as (m & z & k & A & B & C).
    destruct A as [[? ?]|[_ A]]; [lia|]. destruct B as [[? ?]|[_ B]]; [lia|]. simpl in A, B. lia.
Qed.
Print Assumptions C87_multiple_refuted.

(** [P: {type: number, multipleOf: 2}], [D: {type: P, multipleOf: 4}]: the
    multipleOf of D is lost, that of P is written into the schema of D. *)
Theorem C87_own_multiple_refuted : exists p d Sd t,
  gives85 [("P", mp [("type", sc "number"); ("multipleOf", int "2")]); ("D", mp [("type", sc "P"); ("multipleOf", int "4")])] p
  /\ type_in p "D" = Some d /\ convert 20 true (env (heap (p_st p))) d = Ok Sd
  /\ oget "D" (definitions Sd) = Some t /\ k_type (keywords t) = "number" /\ k_mult (keywords t) = Some (NumF f2).
Proof. do 4 eexists. repeat (split; [vm_compute; reflexivity|]). vm_compute. reflexivity. Qed.
Print Assumptions C87_own_multiple_refuted.
