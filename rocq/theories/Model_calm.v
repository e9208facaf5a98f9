(** Unwrapping and validation of a parsed model do not panic (C46). *)
From Coq Require Import ZArith List String Bool Lia.
From Verif Require Import Base Scalars Heap Validate Names Pipeline Spec_Model Spec_Pipeline Decode Parse Parse_ends.
From Verif Require Spec_Calm Shapes_calm Parse_fresh Decode_settle Spec_Decode Pipeline_proofs.
Import ListNotations.
Open Scope string_scope.
Open Scope list_scope.
Open Scope nat_scope.

(** The rest of a parse. *)
Definition later (n : nat) (O : oracle) (o1 o2 o3 : list string) (u v : bool) (ep : entry_point) : D entry_point :=
  ((if u then
     (fun p => match unwrap_shapes n o1 o2 (raml_of p) (p_st p) with
               | (Ok R, s) => (Ok tt, with_raml p s R)
               | (Err, s) => (Err, with_raml p s (raml_of p))
               | (Panic, s) => (Panic, with_raml p s (raml_of p))
               | (OutOfFuel, s) => (OutOfFuel, with_raml p s (raml_of p))
               end)
   else dret tt) ;;;
  (if v then
     (fun p => match validate_shapes n O o3 (raml_of p) (p_st p) with
               | (r, s) => (r, with_raml p s (raml_of p))
               end)
   else dret tt) ;;;
  dret ep)%D.

Lemma parse_later E n O o1 o2 o3 text path u v :
  parse_string E n O o1 o2 o3 u v text path =
  match parse_string E n O o1 o2 o3 false false text path with
  | (Ok ep, p) => later n O o1 o2 o3 u v ep p
  | (Err, p) => (Err, p)
  | (Panic, p) => (Panic, p)
  | (OutOfFuel, p) => (OutOfFuel, p)
  end.
Proof.
  assert (Q : forall u v, parse_string E n O o1 o2 o3 u v text path =
    dbind (decode_fragment E n text path) (fun ep => dbind (resolve_fragment E n) (fun _ => later n O o1 o2 o3 u v ep)) new_raml) by reflexivity.
  rewrite !Q. unfold dbind. destruct (decode_fragment E n text path new_raml) as [[ep| | |] p]; try reflexivity.
  destruct (resolve_fragment E n p) as [[w| | |] p1]; reflexivity.
Qed.

Section After.
Variable E : denv.
Variables (n : nat) (O : oracle) (o1 o2 o3 : list string) (text path : string) (ep : entry_point) (p : pst).
Hypothesis P : parse_string E n O o1 o2 o3 false false text path = (Ok ep, p).
Hypothesis Pl : Spec_Calm.plain_enums (heap (p_st p)).
Hypothesis Un : Spec_Calm.union_free (heap (p_st p)).

Notation lv := (Shapes_calm.lv (Shapes_calm.live (heap (p_st p)))).

Lemma parsed_wf : wf_heap (heap (p_st p)).
Proof. destruct (Parse_fresh.parse_fresh _ _ _ _ _ _ _ _ _ _ P) as [[W _] _]. exact W. Qed.
Lemma parsed_base : declared_ok (heap (p_st p)) (raml_of p).
Proof. destruct (Parse_fresh.parse_fresh _ _ _ _ _ _ _ _ _ _ P) as (_ & _ & D & _). exact D. Qed.
Lemma parsed_libs : Shapes_calm.libs_lv (Shapes_calm.live (heap (p_st p))) (heap (p_st p)) (p_libs p).
Proof.
  intros lib J. split; intros k a Ja; (destruct (parsed_base a) as [b B]; [|exact (Shapes_calm.live_base _ _ _ B)]).
  - now apply (dc_type (raml_of p) a lib k).
  - now apply (dc_annot (raml_of p) a lib k).
Qed.
Lemma parsed_frags : Shapes_calm.frags_lv (Shapes_calm.live (heap (p_st p))) (List.length (p_libs p)) (heap (p_st p)) (p_frags p).
Proof.
  intros k f J. destruct (Decode_settle.parse_as_written _ _ _ _ _ _ _ _ _ _ P _ _ J) as (t & _ & S). destruct f as [l|us o|]; cbn in *; auto.
  - destruct S as (doc & lib & _ & N & _). apply nth_error_Some. congruence.
  - destruct S as (doc & v & x & -> & _). exists x. split; [reflexivity|]. destruct (parsed_base x) as [b B]; [|exact (Shapes_calm.live_base _ _ _ B)].
    apply (dc_data (raml_of p) x k us). exact (Pipeline_proofs.oget_In _ _ _ J).
Qed.
Lemma parsed_exts : Shapes_calm.exts_lv (Shapes_calm.live (heap (p_st p))) (heap (p_st p)) (p_exts p).
Proof.
  assert (A : Parse_fresh.annotated p).
  { pose proof P as H. unfold parse_string, parse_fragment in H. apply Parse_fresh.dbind_ok in H. destruct H as (ep' & p1 & H1 & H).
    pose proof (Parse_fresh.decode_fragment_fine _ _ _ _ _ _ _ Parse_fresh.fine_new H1) as F1. apply Parse_fresh.dbind_ok in H. destruct H as (u & p2 & H2 & H).
    injection H as _ <-. exact (Parse_fresh.resolve_fragment_annotated _ _ _ _ _ F1 H2). }
  intros e J. destruct (A e J) as (a & Q & _ & B). exists a. split; [exact Q|]. apply Parse_fresh.has_base in B. destruct B as [b B]. exact (Shapes_calm.live_base _ _ _ B).
Qed.

Lemma unwrapping : let r := unwrap_shapes n o1 o2 (raml_of p) (p_st p) in fst r <> Panic
  /\ Shapes_calm.fine (Shapes_calm.live (heap (p_st p))) (List.length (heap (p_st p))) Shapes_calm.flat False True (heap (snd r))
  /\ forall R, fst r = Ok R -> (Shapes_calm.libs_lv (Shapes_calm.live (heap (p_st p))) (heap (snd r)) (r_libs R)
       /\ Shapes_calm.frags_lv (Shapes_calm.live (heap (p_st p))) (List.length (r_libs R)) (heap (snd r)) (r_frags R))
       /\ Shapes_calm.ext_lv (Shapes_calm.live (heap (p_st p))) (heap (snd r)) (r_exts R).
Proof.
  destruct (Shapes_calm.calm_unwrap_shapes _ _ (Shapes_calm.live_new (heap (p_st p))) Shapes_calm.flat False True Shapes_calm.flat_none Shapes_calm.flat_inherit I (fun f => f)
    n o1 o2 (raml_of p) (p_st p) (Shapes_calm.free_fine _ parsed_wf Pl Un) (conj (conj parsed_libs parsed_frags) parsed_exts)) as (A & B & _ & D).
  cbv zeta. split; [exact A|]. split; [exact B|]. exact D.
Qed.

Lemma validating : fst (validate_shapes n O o3 (raml_of p) (p_st p)) <> Panic.
Proof.
  exact (proj1 (Shapes_calm.calm_validate_shapes _ _ (Shapes_calm.live_new (heap (p_st p))) Shapes_calm.flat False True Shapes_calm.flat_none Shapes_calm.flat_inherit I (fun f => f)
    n O o3 (raml_of p) (p_st p) (Shapes_calm.free_fine _ parsed_wf Pl Un) (conj (conj parsed_libs parsed_frags) parsed_exts))).
Qed.

Lemma both R s : unwrap_shapes n o1 o2 (raml_of p) (p_st p) = (Ok R, s) -> (forall e, In e (r_exts R) -> e_def e <> None) ->
  fst (validate_shapes n O o3 R s) <> Panic.
Proof.
  intros H K. pose proof unwrapping as (A & B & C). rewrite H in *. cbn [fst snd] in *. destruct (C R eq_refl) as (C1 & C2).
  refine (proj1 (Shapes_calm.calm_validate_shapes _ _ (Shapes_calm.live_new (heap (p_st p))) Shapes_calm.flat False True Shapes_calm.flat_none Shapes_calm.flat_inherit I (fun f => f)
    n O o3 R s B (conj C1 _))).
  intros e J. destruct (e_def e) as [a|] eqn:Ed; [|elim (K _ J Ed)]. exists a. split; [reflexivity|exact (C2 _ _ J Ed)].
Qed.

Theorem after_quiet u v : (u = true -> v = true -> forall R s, unwrap_shapes n o1 o2 (raml_of p) (p_st p) = (Ok R, s) ->
    forall e, In e (r_exts R) -> e_def e <> None) ->
  fst (parse_string E n O o1 o2 o3 u v text path) <> Panic.
Proof.
  intros K. rewrite parse_later, P. unfold later. destruct u.
  - pose proof unwrapping as (A & _). unfold dbind at 1. destruct (unwrap_shapes n o1 o2 (raml_of p) (p_st p)) as [[R| | |] s] eqn:U; cbn [fst] in *; try discriminate; [|congruence].
    destruct v; [|discriminate]. pose proof (both R s U (K eq_refl eq_refl R s eq_refl)) as V. unfold dbind at 1.
    assert (Q : raml_of (with_raml p s R) = R) by (destruct R; reflexivity). rewrite Q. change (p_st (with_raml p s R)) with s.
    destruct (validate_shapes n O o3 R s) as [[| | |] s']; cbn in *; congruence.
  - unfold dbind at 1. cbn [dret]. destruct v; [|discriminate]. pose proof validating as V. unfold dbind at 1.
    destruct (validate_shapes n O o3 (raml_of p) (p_st p)) as [[| | |] s']; cbn in *; congruence.
Qed.
End After.
