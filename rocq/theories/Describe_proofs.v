(** Proofs about what a converted type says about itself (C60). *)
From Coq Require Import ZArith List String Bool.
From Verif Require Import Base Scalars Heap Schema Convert Spec_Schema Spec_Describe Convert_proofs.
Import ListNotations.
Open Scope string_scope.
Open Scope list_scope.

(** The keywords that repeat what is written. *)
Definition same_meta (k k' : kw) : Prop :=
  k_title k = k_title k' /\ k_desc k = k_desc k' /\ k_default k = k_default k' /\ k_examples k = k_examples k'.

Section D.
Variable E : cenv.
Variable n : nat.
Let rec := visit n E.

Definition wrapped_by (b : base) (x : extras) : Prop :=
  listed (fun k x => fst k = fst x /\ snd x = c_dom E (snd k)) (b_domain b) (fst (fst x))
  /\ (exists l, get_facets (c_heap E) (b_facets b) = Some l /\ listed eq l (snd x))
  /\ exists l, get_props (c_heap E) (b_fdefs b) = Some l
     /\ listed (fun k x => fst k = fst x /\ exists n d d', visit n E (p_base (snd k)) d = Ok (snd x, d')) l (snd (fst x)).

Lemma cmap_visits l : forall d r d', cmap (fun p : prop => rec (p_base p)) l d = Ok (r, d') ->
  Forall2 (fun k x => fst k = fst x /\ exists n d d', visit n E (p_base (snd k)) d = Ok (snd x, d')) l r.
Proof.
  induction l as [|[k p] l IH]; intros d r d' H; simpl in H.
  - apply cret_ok in H. destruct H as [-> _]. constructor.
  - apply cbind_ok in H. destruct H as (y & d1 & H1 & H). apply cbind_ok in H. destruct H as (ys & d2 & H2 & H).
    apply cret_ok in H. destruct H as [-> ->]. constructor; [|eapply IH; eauto]. split; [reflexivity|]. simpl. unfold rec in H1. eauto.
Qed.

Lemma wrap_wrapped b d x d' : wrap_base E rec b d = Ok (x, d') -> wrapped_by b x.
Proof.
  intros H. unfold wrap_base in H. apply cbind_ok in H. destruct H as (fd & d0 & H0 & H). apply cread_ok in H0. destruct H0 as [Fd ->].
  apply cbind_ok in H. destruct H as (fs & d1 & H1 & H). apply cbind_ok in H. destruct H as (fv & d2 & H2 & H).
  apply cread_ok in H2. destruct H2 as [Fv ->]. apply cret_ok in H. destruct H as [-> ->]. apply cmap_visits in H1.
  split; [|split].
  - simpl. split; [|now intros ->].
    assert (G : forall l, Forall2 (fun (k : string * Z) x => fst k = fst x /\ snd x = c_dom E (snd k)) l (map (fun kz => (fst kz, c_dom E (snd kz))) l)).
    { induction l; simpl; constructor; auto. }
    destruct (b_domain b) eqn:D; [constructor|]. simpl. rewrite <- D. rewrite D. apply G.
  - exists fv. split; [exact Fv|]. simpl. split; [|now intros ->].
    assert (G : forall l : list (string * gval), Forall2 eq l l) by (induction l; constructor; auto).
    destruct fv; [constructor|]. apply G.
  - exists fd. split; [exact Fd|]. simpl. split.
    + destruct fs; exact H1.
    + intros ->. inversion H1; subst. reflexivity.
Qed.

Lemma meta_described b s x : same_meta (keywords s) (meta b) -> wrapped_by b x ->
  annotations s = fst (fst x) -> facet_definitions s = snd (fst x) -> facet_data s = snd x -> described E b s /\ nothing_added b s.
Proof.
  intros (T & De & Df & Ex) (W1 & W2 & W3) A1 A2 A3. split.
  - constructor.
    + intros y Y _. rewrite T. simpl. now rewrite Y.
    + intros y Y _. rewrite De. simpl. now rewrite Y.
    + intros y Y _. rewrite Df. simpl. now rewrite Y.
    + intros y Y. rewrite Ex. simpl. now rewrite Y.
    + intros l N Y _. rewrite Ex. simpl. now rewrite N, Y.
    + now rewrite A1.
    + now rewrite A3.
    + now rewrite A2.
  - repeat split.
    + intros Y. rewrite T. simpl. now rewrite Y.
    + intros Y. rewrite De. simpl. now rewrite Y.
    + intros Y. rewrite Df. simpl. now rewrite Y.
    + intros Y1 Y2. rewrite Ex. simpl. now rewrite Y1, Y2.
Qed.

Lemma node_described b k an its ps pps x : same_meta k (meta b) -> wrapped_by b x ->
  described E b (node_with k an its ps pps x) /\ nothing_added b (node_with k an its ps pps x).
Proof. intros K W. now apply meta_described with x. Qed.

Lemma leaf_described b f d s d' : (forall k, same_meta (f k) k) -> visit_leaf E rec b f d = Ok (s, d') ->
  described E b s /\ nothing_added b s.
Proof.
  intros F H. unfold visit_leaf in H. apply cbind_ok in H. destruct H as (x & d1 & H1 & H). apply cret_ok in H. destruct H as [-> ->].
  apply node_described; [apply F|eapply wrap_wrapped; eauto].
Qed.

Ltac step H := apply cbind_ok in H; destruct H as (? & ? & ? & H).

Lemma body_described a d s d' b sh : visit_body E rec a d = Ok (s, d') ->
  get_base (c_heap E) a = Some b -> b_shape b = Some sh -> sh <> SUnknown -> (forall hd, sh <> SRec hd) ->
  described E b s /\ ((forall raw, sh <> SJSON raw) -> nothing_added b s).
Proof.
  intros H G Sh NU NR. unfold visit_body in H. apply cbind_ok in H. destruct H as (b' & d0 & H0 & H). apply cread_ok in H0. destruct H0 as [G' ->].
  assert (b' = b) by congruence. subst b'. rewrite Sh in H. clear Sh G G'.
  assert (Q : forall P Q R : Prop, P /\ Q -> P /\ (R -> Q)) by tauto.
  assert (R0 : forall k, same_meta k k) by (intros; repeat split).
  destruct sh; try congruence; try (exfalso; eapply NR; reflexivity).
  - apply Q. unfold visit_any in H. eapply leaf_described; [|exact H]. auto.
  - apply Q. unfold visit_nil in H. eapply leaf_described; [|exact H]. intros; repeat split.
  - apply Q. unfold visit_integer in H. eapply leaf_described; [|exact H]. intros; repeat split.
  - apply Q. unfold visit_number in H. eapply leaf_described; [|exact H]. intros; repeat split.
  - apply Q. unfold visit_string in H. eapply leaf_described; [|exact H]. intros k. destruct (sf_pat f); repeat split.
  - apply Q. unfold visit_file in H. step H. apply wrap_wrapped in H0.
    destruct (ff_types f) as [[|[] ?]|]; try discriminate; apply cret_ok in H; destruct H as [-> ->];
      (apply node_described; [repeat split|auto]).
  - apply Q. unfold visit_boolean in H. eapply leaf_described; [|exact H]. intros; repeat split.
  - apply Q. unfold visit_datetime in H. eapply leaf_described; [|exact H]. intros k.
    destruct format as [f|]; [|repeat split]. cbv zeta. destruct (String.eqb f "rfc3339"); [repeat split|]. destruct (String.eqb f "rfc2616"); repeat split.
  - apply Q. unfold visit_datetime_only in H. eapply leaf_described; [|exact H]. intros; repeat split.
  - apply Q. unfold visit_date_only in H. eapply leaf_described; [|exact H]. intros; repeat split.
  - apply Q. unfold visit_time_only in H. eapply leaf_described; [|exact H]. intros; repeat split.
  - apply Q. unfold visit_array in H. step H. step H. apply wrap_wrapped in H0. apply cret_ok in H. destruct H as [-> ->].
    apply node_described; auto. repeat split.
  - apply Q. unfold visit_object in H. step H. step H. step H. step H. apply wrap_wrapped in H0. apply cret_ok in H. destruct H as [-> ->].
    apply node_described; auto. repeat split.
  - apply Q. unfold visit_union in H. step H. step H. step H. apply wrap_wrapped in H0. apply cret_ok in H. destruct H as [-> ->].
    apply node_described; auto.
  - unfold visit_json in H. step H. apply wrap_wrapped in H0. split; [|intros N; exfalso; eapply N; reflexivity].
    destruct (recast (c_json E _)) as [|k defs al an on nt it th el its ps pps pn z1 z2 z3]; [discriminate|].
    apply cret_ok in H. destruct H as [-> _]. destruct H0 as (W1 & W2 & W3). constructor; auto.
    + intros y Y N. simpl. rewrite Y. destruct (String.eqb y "") eqn:Q1; [apply String.eqb_eq in Q1; congruence|reflexivity].
    + intros y Y N. simpl. rewrite Y. destruct (String.eqb y "") eqn:Q1; [apply String.eqb_eq in Q1; congruence|reflexivity].
    + intros y Y N. simpl. rewrite Y. destruct y; congruence.
    + intros y Y. simpl. now rewrite Y.
    + intros l N Y NE. simpl. rewrite N, Y. destruct l; [congruence|reflexivity].
Qed.
End D.

Lemma converted_described n E a d s d' b sh : visit n E a d = Ok (s, d') ->
  get_base (c_heap E) a = Some b -> b_shape b = Some sh -> sh <> SUnknown -> (forall hd, sh <> SRec hd) ->
  described E b s /\ ((forall raw, sh <> SJSON raw) -> nothing_added b s).
Proof. destruct n as [|n]; [discriminate|]. apply body_described. Qed.
