(** Every type and every annotation of a parsed model has the location of a file
    that was loaded (C71). *)
From Coq Require Import ZArith List String Bool Lia.
From Verif Require Import Base Scalars Heap Names Yaml Pipeline Decode Parse Heap_lemmas Pipeline_proofs Locate Keep_loc
  Props_Parse Props_Fresh Props_Found.
Import ListNotations.
Open Scope string_scope.
Open Scope list_scope.
Open Scope nat_scope.

(** The cache of fragments has an entry for [loc]. *)
Definition loaded (p : pst) (loc : string) : Prop := exists f, oget loc (p_frags p) = Some f.

Definition types_loaded (p : pst) : Prop := forall a b, get_base (heap (p_st p)) a = Some b -> loaded p (b_loc b).
Definition exts_loaded (p : pst) : Prop := forall e, In e (p_exts p) -> loaded p (e_loc e).

Lemma located_loaded p : located (fun _ => False) p <-> types_loaded p /\ exts_loaded p.
Proof.
  assert (L : forall q, okl (fun _ => False) q p <-> loaded p q).
  { intros q. unfold okl, at_file, loaded. destruct (oget q (p_frags p)) as [f|]; split.
    - intros _. eauto.
    - intros _. right. discriminate.
    - intros [[]|H]. now elim H.
    - intros [f H]. discriminate. }
  split; intros [A B]; split.
  - intros a b G. apply L. exact (A a b G).
  - intros e J. apply L. exact (B e J).
  - intros a b G. apply L. exact (A a b G).
  - intros e J. apply L. exact (B e J).
Qed.

(** ** UnwrapShapes keeps the entries of the cache *)
Lemma oset_kept {A} k (x : A) (m : omap A) q : (exists f, oget q m = Some f) -> exists f, oget q (oset k x m) = Some f.
Proof.
  intros [f H]. destruct (String.eqb_spec q k) as [->|N]; [exists x; apply oget_oset_same|]. exists f. now rewrite oget_oset_other.
Qed.
Lemma fragment_kept n loc f u s u' s' q : unwrap_fragment n loc f u s = (Ok u', s') ->
  (exists f, oget q (u_frags u) = Some f) -> exists f, oget q (u_frags u') = Some f.
Proof.
  intros H K. destruct f as [l|us [a|]|]; cbn [unwrap_fragment] in H.
  - destruct (nth_error (u_libs u) l) as [lib|]; [|discriminate]. apply bind_inv in H. destruct H as ([[ok an] ia] & s1 & _ & H).
    apply bind_inv in H. destruct H as ([[ok' ty] it] & s2 & _ & H). injection H as <- _. exact K.
  - apply bind_inv in H. destruct H as ([us'|] & s1 & _ & H); [|injection H as <- _; exact K].
    apply bind_inv in H. destruct H as ([] & s2 & _ & H). apply bind_inv in H. destruct H as (ub & s3 & _ & H). injection H as <- _. now apply oset_kept.
  - injection H as <- _. exact K.
  - injection H as <- _. exact K.
Qed.
Lemma fragments_kept n o : forall u s u' s' q, unwrap_fragments n o u s = (Ok u', s') ->
  (exists f, oget q (u_frags u) = Some f) -> exists f, oget q (u_frags u') = Some f.
Proof.
  induction o as [|k o IH]; intros u s u' s' q H K; cbn [unwrap_fragments] in H; [injection H as <- _; exact K|].
  destruct (oget k (u_frags u)) as [f|]; [|exact (IH _ _ _ _ _ H K)]. apply bind_inv in H. destruct H as (u1 & s1 & H1 & H).
  exact (IH _ _ _ _ _ H (fragment_kept _ _ _ _ _ _ _ q H1 K)).
Qed.

Lemma unwrap_loaded n o1 o2 p R s : unwrap_shapes n o1 o2 (raml_of p) (p_st p) = (Ok R, s) ->
  types_loaded p -> exts_loaded p -> types_loaded (with_raml p s R) /\ exts_loaded (with_raml p s R).
Proof.
  intros H T X. pose proof H as Hf. apply unwrap_shapes_inv in Hf. destruct Hf as (u & s1 & Hf & _ & _ & _ & Qf & _).
  assert (M : forall q, loaded p q -> loaded (with_raml p s R) q).
  { intros q K. unfold loaded. cbn [with_raml p_frags]. rewrite Qf. exact (fragments_kept _ _ _ _ _ _ q Hf K). }
  split.
  - intros a b G. apply M. exact (a_unwrap_shapes (loaded p) n o1 o2 (raml_of p) _ _ _ H T a b G).
  - intros e J. cbn [with_raml p_exts] in J. apply M. pose proof (C54_unwrapped _ _ _ _ _ _ _ H) as F. cbn [raml_of r_exts] in F. clear -F J X.
    assert (K : exists e0, In e0 (p_exts p) /\ e_loc e = e_loc e0).
    { clear X. induction F as [|e0 e1 l l' Le F IH]; [destruct J|]. destruct J as [->|J].
      - exists e0. split; [now left|]. exact (proj1 (proj2 Le)).
      - destruct (IH J) as (e2 & J2 & Q2). exists e2. split; [now right|exact Q2]. }
    destruct K as (e0 & J0 & ->). exact (X e0 J0).
Qed.

(** ParseFromString, with any options: the location of every type that exists, used
    or not, is the path of a fragment in the cache, and so is that of every
    annotation. *)
Theorem C71_located : forall E n O o1 o2 o3 u v text path ep p,
  parse_string E n O o1 o2 o3 u v text path = (Ok ep, p) -> types_loaded p /\ exts_loaded p.
Proof.
  intros E n O o1 o2 o3 u v text path ep p H. unfold parse_string, parse_fragment in H. unfold dbind at 1 in H.
  destruct (decode_fragment E n text path new_raml) as [[e| | |] p1] eqn:D; try discriminate. apply fragment_located in D.
  unfold dbind at 1 in H. destruct (resolve_fragment E n p1) as [[w| | |] p2] eqn:Er; try discriminate.
  apply (resolve_located _ _ _ _ _ Er), located_loaded in D. destruct D as [T X].
  assert (K : exists p3, (types_loaded p3 /\ exts_loaded p3) /\
    dbind (if v then fun p => match validate_shapes n O o3 (raml_of p) (p_st p) with (r, s) => (r, with_raml p s (raml_of p)) end else dret tt)
      (fun _ => dret e) p3 = (Ok ep, p)).
  { destruct u.
    - unfold dbind at 1 in H. destruct (unwrap_shapes n o1 o2 (raml_of p2) (p_st p2)) as [[R| | |] s] eqn:U; try discriminate.
      exists (with_raml p2 s R). split; [exact (unwrap_loaded _ _ _ _ _ _ U T X)|exact H].
    - exists p2. split; [now split|exact H]. }
  clear - K. destruct K as (p3 & [T X] & H). destruct v; unfold dbind, dret in H; [|injection H as _ <-; now split].
  destruct (validate_shapes n O o3 (raml_of p3) (p_st p3)) as [[w| | |] s] eqn:V; try discriminate. injection H as _ <-. split.
  - intros a b G. exact (a_validate_shapes (loaded p3) n O o3 (raml_of p3) _ _ _ V T a b G).
  - exact X.
Qed.
Print Assumptions C71_located.

(** UnwrapShapes and ValidateShapes on any model, and when they fail too: they
    make types only at locations where there was one before. *)
Definition no_new_place (s s' : st) : Prop :=
  forall a b, get_base (heap s') a = Some b -> exists a0 b0, get_base (heap s) a0 = Some b0 /\ b_loc b0 = b_loc b.
Theorem C71_no_new_place : forall n O o1 o2 R s,
  no_new_place s (snd (unwrap_shapes n o1 o2 R s)) /\ no_new_place s (snd (validate_shapes n O o1 R s)).
Proof.
  intros n O o1 o2 R s. split; intros a b G.
  - destruct (unwrap_shapes n o1 o2 R s) as [r s'] eqn:H.
    exact (a_unwrap_shapes (fun q => exists a0 b0, get_base (heap s) a0 = Some b0 /\ b_loc b0 = q) n o1 o2 R _ _ _ H
             (fun x y K => ex_intro _ x (ex_intro _ y (conj K eq_refl))) a b G).
  - destruct (validate_shapes n O o1 R s) as [r s'] eqn:H.
    exact (a_validate_shapes (fun q => exists a0 b0, get_base (heap s) a0 = Some b0 /\ b_loc b0 = q) n O o1 R _ _ _ H
             (fun x y K => ex_intro _ x (ex_intro _ y (conj K eq_refl))) a b G).
Qed.
Print Assumptions C71_no_new_place.

(** ** A case: the locations of the types of [d61], in the order in which they
    were made: those of the libraries, of the included data type, of what type
    expressions stand for, and of the members of unions. *)
Definition places (p : pst) : list string :=
  flat_map (fun c => match c with CBase b => [b_loc b] | _ => [] end) (heap (p_st p)).
Example C71_case : fst (whole d61 40 false false "a.raml") = Ok (ELib 1)
  /\ fst (whole d61 40 true true "a.raml") = Ok (ELib 1)
  /\ map fst (p_frags (snd (whole d61 40 true true "a.raml"))) = ["t.raml"; "c.raml"; "a.raml"; "b.raml"]
  /\ map e_loc (p_exts (snd (whole d61 40 true true "a.raml"))) = ["a.raml"]
  /\ places (snd (whole d61 40 false false "a.raml")) =
     ["a.raml"; "a.raml"; "t.raml"; "t.raml"; "t.raml"; "c.raml"; "a.raml"; "a.raml"; "a.raml"; "a.raml"; "a.raml"; "a.raml"; "a.raml"; "a.raml";
      "a.raml"; "b.raml"; "b.raml"; "t.raml"; "c.raml"; "c.raml"; "t.raml"; "a.raml"; "a.raml"; "a.raml"; "a.raml"].
Proof.
  split; [vm_compute; reflexivity|]. split; [vm_compute; reflexivity|]. split; [vm_compute; reflexivity|]. split; vm_compute; reflexivity.
Qed.
