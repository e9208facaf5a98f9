(** Property theorems C39 and C40. *)
From Coq Require Import List String Bool Arith Lia.
From Verif Require Import Base Hooks Spec_Hooks Hooks_proofs.
Import ListNotations.
Open Scope string_scope.
Open Scope list_scope.
Open Scope nat_scope.

(** * C39: after any history of registry calls, hooks run in list order until
    the first error, even if they register, prepend or clear while running. *)
Theorem C39_hooks_in_order : forall spare B ops key t e st',
  never_removes B ->
  call_hooks spare B (do_ops spare hooks_init ops) key = (t, e, st') ->
  runs B (registered key ops) t e.
Proof. exact call_runs. Qed.
Print Assumptions C39_hooks_in_order.

(** [runs] determines the calls and the outcome. *)
Theorem C39_runs_deterministic : forall B l,
  (exists t e, runs B l t e)
  /\ (forall t e t' e', runs B l t e -> runs B l t' e' -> t = t' /\ e = e').
Proof. exact (fun B l => conj (runs_total B l) (runs_fun B l)). Qed.
Print Assumptions C39_runs_deterministic.

(** Backing-array sharing never shows between calls: the registry behaves as
    one plain list per key. *)
Theorem C39_registry_is_lists : forall spare ops key,
  contents (do_ops spare hooks_init ops) key = registered key ops.
Proof. exact history. Qed.
Print Assumptions C39_registry_is_lists.

Definition hA := Hook 1 0.
Definition hB := Hook 2 0.
Definition hC := Hook 3 0.

Example C39_case :
  let B := fun h => if h_code h =? 2 then ([Clear "k"; Append "k" hA], true) else ([Prepend "k" hC], false) in
  never_removes B
  /\ registered "k" [Append "k" hB; Append "x" hA; Prepend "k" hA; Append "k" nil_hook; Append "k" hC] = [hA; hB; nil_hook; hC]
  /\ fst (call_hooks (fun n => n) B (do_ops (fun n => n) hooks_init
            [Append "k" hB; Append "x" hA; Prepend "k" hA; Append "k" nil_hook; Append "k" hC]) "k")
     = ([hA; hB], true).
Proof.
  split; [|split; reflexivity].
  intros h o. destruct (h_code h =? 2); simpl; intros H; decompose [or] H; subst; auto.
Qed.

(** * C40 *)

(** Removal by a running hook: another registered hook is skipped and a third
    is called twice. *)
Theorem C40_remove_while_running_refuted :
  ~ (forall spare B ops key t st' x,
       call_hooks spare B (do_ops spare hooks_init ops) key = (t, false, st') ->
       NoDup (map h_code (registered key ops)) -> In x (registered key ops) -> h_code x <> 0 ->
       (forall h k y, In (Remove k y) (fst (B h)) -> h_code y <> h_code x) ->
       In x t).
Proof.
  intros H.
  pose (B := fun h => if h_code h =? 1 then ([Remove "k" hA], false) else (@nil hop, false)).
  pose (ops := [Append "k" hA; Append "k" hB; Append "k" hC]).
  specialize (H (fun n => n) B ops "k" [hA; hC; hC]).
  specialize (H (snd (call_hooks (fun n => n) B (do_ops (fun n => n) hooks_init ops) "k")) hB eq_refl).
  assert (K : In hB [hA; hC; hC]).
  { apply H.
    - repeat constructor; simpl; intuition discriminate.
    - simpl. tauto.
    - discriminate.
    - intros h k y. unfold B. destruct (h_code h =? 1); simpl; [|tauto].
      intros [E|[]]. injection E as _ <-. discriminate. }
  simpl in K. decompose [or] K; try discriminate; contradiction.
Qed.
Print Assumptions C40_remove_while_running_refuted.

(** Two closures of one function literal share their code pointer: removing
    the second removes the first. *)
Theorem C40_remove_by_code_pointer_refuted :
  ~ (forall ops key h x, In x (registered key ops) -> x <> h ->
       In x (registered key (ops ++ [Remove key h]))).
Proof.
  intros H. specialize (H [Append "k" (Hook 7 1); Append "k" (Hook 7 2)] "k" (Hook 7 2) (Hook 7 1)).
  simpl in H. destruct H as [H|H]; [now left|discriminate|discriminate|contradiction].
Qed.
Print Assumptions C40_remove_by_code_pointer_refuted.

(** Proved part: between calls, and when no other registered hook shares the
    code pointer, exactly the given hook goes; the others keep their order. *)
Theorem C40_remove_between_calls_partial : forall ops key h,
  (forall x, In x (registered key ops) -> h_code x = h_code h -> x = h) ->
  NoDup (registered key ops) ->
  forall x, In x (registered key (ops ++ [Remove key h])) <-> In x (registered key ops) /\ x <> h.
Proof. exact (fun ops key h => remove_exact ops key h _ eq_refl). Qed.
Print Assumptions C40_remove_between_calls_partial.

Theorem C40_remove_keeps_order_partial : forall ops key h,
  exists l1 l2 r, registered key ops = l1 ++ r ++ l2
    /\ registered key (ops ++ [Remove key h]) = l1 ++ l2
    /\ ((r = [] /\ l2 = [] /\ forall x, In x l1 -> h_code x <> h_code h)
        \/ exists y, r = [y] /\ h_code y = h_code h /\ forall x, In x l1 -> h_code x <> h_code h).
Proof. exact remove_order. Qed.
Print Assumptions C40_remove_keeps_order_partial.

Example C40_case :
  registered "k" [Append "k" hA; Append "k" hB; Append "k" hC; Remove "k" hB] = [hA; hC]
  /\ (forall x, In x [hA; hB; hC] -> h_code x = h_code hB -> x = hB).
Proof.
  split; [reflexivity|]. intros x [<-|[<-|[<-|[]]]]; simpl; congruence.
Qed.
