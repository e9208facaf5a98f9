(** Property theorem C78. *)
From Coq Require Import List String Bool Arith Lia.
From Verif Require Import Base Hooks Spec_Hooks Shape_hooks Spec_Shape_hooks Shape_hooks_proofs.
Import ListNotations.
Open Scope string_scope.
Open Scope list_scope.
Open Scope nat_scope.

(** * C78: after any history of calls on types and RAML objects and of copies, a
    call for a type runs the hooks of its owner in order until the first error,
    each with the type as parameter. *)
Theorem C78_called : forall spare objects B ptrs l i key t e,
  (forall i r, nth_error ptrs i = Some (Some r) -> r < objects) ->
  (forall r o, In (OnObject r o) l -> r < objects) -> never_removes B ->
  call_raml_hooks spare B (history_of spare objects ptrs l) i key = (t, e) ->
  exists hs, runs B (hooks_for key (view_of ptrs l) i) hs e /\ t = map (fun h => (h, i)) hs.
Proof. exact types_call. Qed.
Print Assumptions C78_called.

(** What this says of one more call on a type: it counts for the type and for all
    types with the same owner, and for no other type. *)
Definition one_owner (v : view) (i j : nat) : Prop :=
  i = j \/ exists x, nth_error (v_owners v) i = Some (Some x) /\ nth_error (v_owners v) j = Some (Some x).

Theorem C78_one_more : forall ptrs l i o j key, i < List.length (v_owners (view_of ptrs l)) ->
  (one_owner (view_of ptrs l) i j -> hooks_for key (view_of ptrs (l ++ [OnType i o])) j = step_list key (hooks_for key (view_of ptrs l) j) o)
  /\ (~ one_owner (view_of ptrs l) i j -> hooks_for key (view_of ptrs (l ++ [OnType i o])) j = hooks_for key (view_of ptrs l) j).
Proof.
  intros ptrs l i o j key Hi. unfold view_of at 2 5. rewrite fold_left_app. fold (view_of ptrs l). cbn [fold_left view_step].
  assert (Fresh : forall m, nth_error (v_owners (view_of ptrs l)) m <> Some (Some (Own m)) ->
            (forall m', nth_error (v_owners (view_of ptrs l)) m' <> Some (Some (Own m))) /\ asked_of (Own m) (v_calls (view_of ptrs l)) = []).
  { clear. induction l as [|e l IH] using rev_ind; intros m.
    - cbn. intros _. split; auto. intros m'. rewrite nth_error_map. destruct (nth_error ptrs m') as [[r|]|]; cbn; congruence.
    - unfold view_of. rewrite fold_left_app. fold (view_of ptrs l). cbn [fold_left]. set (v := view_of ptrs l) in *.
      destruct e as [i o|r o|i]; cbn [view_step].
      + destruct (nth_error (v_owners v) i) as [[x|]|] eqn:N; cbn [v_owners v_calls]; auto.
        * intros Nm. destruct (IH m Nm) as (A & B). split; auto. rewrite asked_snoc, B. destruct (owner_eqb (Own m) x) eqn:E; auto.
          apply owner_eqb_eq in E. subst x. exfalso. exact (A i N).
        * destruct (adds o); cbn [v_owners v_calls]; auto. rewrite replace_set. intros Nm.
          destruct (Nat.eq_dec i m) as [<-|D]; [rewrite (nth_set_same _ _ _ _ N) in Nm; congruence|].
          rewrite nth_set_other in Nm by exact D. destruct (IH m Nm) as (A & B). split.
          -- intros m'. destruct (Nat.eq_dec i m') as [<-|D']; [rewrite (nth_set_same _ _ _ _ N); congruence|].
             rewrite nth_set_other by exact D'. apply A.
          -- rewrite asked_snoc, B. cbn. destruct (Nat.eqb_spec m i); [congruence|reflexivity].
      + cbn [v_owners v_calls]. intros Nm. destruct (IH m Nm) as (A & B). split; auto. rewrite asked_snoc, B. reflexivity.
      + destruct (nth_error (v_owners v) i) as [q|] eqn:N; cbn [v_owners v_calls]; auto.
        intros Nm. assert (Nm' : nth_error (v_owners v) m <> Some (Some (Own m))).
        { intros Q. apply Nm. rewrite nth_error_app1; auto. apply nth_error_Some. congruence. }
        destruct (IH m Nm') as (A & B). split; auto. intros m' Q.
        destruct (nth_snoc _ _ _ _ Q) as [Q'|[_ Q']]; [exact (A m' Q')|]. rewrite <- Q' in N. exact (A i N). }
  set (v := view_of ptrs l) in *. destruct (nth_error (v_owners v) i) as [[x|]|] eqn:N.
  - unfold hooks_for. cbn [v_owners v_calls]. split.
    + intros S. assert (Nj : nth_error (v_owners v) j = Some (Some x)).
      { destruct S as [<-|(y & Y1 & Y2)]; congruence. }
      rewrite Nj, asked_snoc, owner_eqb_refl. unfold registered. now rewrite fold_left_app.
    + intros S. destruct (nth_error (v_owners v) j) as [[y|]|] eqn:Nj; auto. rewrite asked_snoc.
      destruct (owner_eqb y x) eqn:E; [|now rewrite app_nil_r]. apply owner_eqb_eq in E. subst y.
      exfalso. apply S. right. eauto.
  - assert (J : one_owner v i j -> j = i) by (intros [<-|(y & Y1 & _)]; congruence).
    assert (Ni : nth_error (v_owners v) i <> Some (Some (Own i))) by congruence. destruct (Fresh i Ni) as (F1 & F2).
    assert (Off : j <> i -> hooks_for key (View (replace i (Some (Own i)) (v_owners v)) (v_calls v ++ [(Own i, o)])) j = hooks_for key v j).
    { intros D. unfold hooks_for. cbn [v_owners v_calls]. rewrite replace_set, nth_set_other by congruence.
      destruct (nth_error (v_owners v) j) as [[y|]|] eqn:Nj; auto. rewrite asked_snoc.
      destruct (owner_eqb y (Own i)) eqn:E; [|now rewrite app_nil_r]. apply owner_eqb_eq in E. subst y. exfalso. exact (F1 j Nj). }
    destruct (adds o) eqn:Ad; split; intros S.
    + specialize (J S). subst j. unfold hooks_for. cbn [v_owners v_calls]. rewrite replace_set, (nth_set_same _ _ _ _ N), N.
      rewrite asked_snoc, F2, owner_eqb_refl. reflexivity.
    + apply Off. intros ->. apply S. now left.
    + specialize (J S). subst j. unfold hooks_for. rewrite N. destruct o as [k h|k h|k h|k]; cbn in *; try discriminate; now destruct (String.eqb k key).
    + reflexivity.
  - exfalso. apply nth_error_None in N. lia.
Qed.
Print Assumptions C78_one_more.

(** Types 0 and 1 have the object 0, type 2 has none. Types 3 and 5 are copies of
    2, made before and after its first hook; type 4 is a copy of 0. *)
Definition h78 (c : nat) : hook := Hook c 0.
Definition l78 : list event :=
  [OnType 0 (Append "k" (h78 1)); Copy 2; OnType 2 (Append "k" (h78 2)); Copy 0; Copy 2;
   OnType 4 (Prepend "k" (h78 3)); OnType 5 (Append "k" (h78 4)); OnObject 0 (Append "k" (h78 5)); OnType 3 (Remove "k" (h78 2))].
Example C78_case :
  let B := fun h : hook => (@nil hop, h_code h =? 5) in
  let st := history_of (fun n => n) 1 [Some 0; Some 0; None] l78 in
  (forall i r, nth_error [Some 0; Some 0; None] i = Some (Some r) -> r < 1) /\ (forall r o, In (OnObject r o) l78 -> r < 1) /\ never_removes B
  /\ call_raml_hooks (fun n => n) B st 1 "k" = ([(h78 3, 1); (h78 1, 1); (h78 5, 1)], true)
  /\ call_raml_hooks (fun n => n) B st 2 "k" = ([(h78 2, 2); (h78 4, 2)], false)
  /\ call_raml_hooks (fun n => n) B st 3 "k" = ([], false)
  /\ one_owner (view_of [Some 0; Some 0; None] l78) 2 5 /\ ~ one_owner (view_of [Some 0; Some 0; None] l78) 2 3.
Proof.
  cbv zeta. repeat split.
  - intros [|[|[|[|i]]]] r H; cbn in H; try discriminate; injection H as <-; lia.
  - intros r o H. cbn in H. repeat (destruct H as [H|H]; [try discriminate|]); [|contradiction]. injection H as <- _. lia.
  - intros h o [].
  - right. exists (Own 2). split; reflexivity.
  - intros [D|(x & A & B)]; [discriminate|]. cbn in A, B. congruence.
Qed.
