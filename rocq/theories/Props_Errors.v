(** Property theorems about the messages of YAML type errors (C68). *)
From Coq Require Import List String Bool.
From Verif Require Import Base Errors.
Import ListNotations.
Open Scope string_scope.
Open Scope list_scope.

(** * C68 *)

(** [e] wraps [t], with the texts [ctx] around it, outermost first. *)
Inductive wraps (t : error) : list string -> error -> Prop :=
| wr_self : wraps t [] t
| wr_more x ctx e : wraps t ctx e -> wraps t (x :: ctx) (Wrapping x e).

Definition type_error (e : error) : Prop := exists l, e = TypeError l.

Lemma as_wraps l ctx e : wraps (TypeError l) ctx e -> as_type_error e = Some l.
Proof. remember (TypeError l) as t eqn:E. induction 1; simpl; auto. now subst. Qed.
Lemma as_none e : (forall t ctx, type_error t -> ~ wraps t ctx e) -> as_type_error e = None.
Proof.
  induction e as [x|l|x e IH]; intros H; simpl; auto.
  - exfalso. apply (H (TypeError l) []); [eexists; reflexivity|constructor].
  - apply IH. intros t ctx T W. apply (H t (x :: ctx) T). now constructor.
Qed.
Lemma get_none trim e : as_type_error e = None -> get_yaml_error trim e = None.
Proof. induction e as [x|l|x e IH]; simpl; intros H; [auto|discriminate|]. rewrite H, IH; auto. Qed.
Lemma get_some trim e l : as_type_error e = Some l -> get_yaml_error trim e = Some l.
Proof. intros H. destruct e; simpl in *; [discriminate|exact H|now rewrite H]. Qed.

(** [s] is the texts [l] one after the other with [sep] between two of them. *)
Inductive joined (sep : string) : list string -> string -> Prop :=
| jo_none : joined sep [] ""
| jo_one x : joined sep [x] x
| jo_more x y l s : joined sep (y :: l) s -> joined sep (x :: y :: l) (x ++ sep ++ s)%string.

Lemma append_nil_r s : (s ++ "")%string = s.
Proof. induction s as [|c s IH]; simpl; [reflexivity|now rewrite IH]. Qed.

Lemma join_joined sep l : joined sep l (join_with sep l).
Proof.
  destruct l as [|x l]; [constructor|]. revert x. induction l as [|y l IH]; intros x; cbn [join_with fold_right].
  - rewrite append_nil_r. constructor.
  - constructor. exact (IH y).
Qed.

(** An error that wraps a YAML type error, however deeply, is replaced by one
    with the messages of the type error, joined by colons; all other errors and
    nil stay as they are. *)
Theorem C68_messages : forall trim e,
  (forall l ctx, wraps (TypeError l) ctx e ->
     exists s, joined ": " l s /\ fix_yaml_error trim (Some e) = Some (Plain s))
  /\ ((forall t ctx, type_error t -> ~ wraps t ctx e) -> fix_yaml_error trim (Some e) = Some e)
  /\ fix_yaml_error trim None = None.
Proof.
  intros trim e. split; [|split; [|reflexivity]].
  - intros l ctx W. exists (join_with ": " l). split; [apply join_joined|].
    simpl. now rewrite (get_some trim _ _ (as_wraps _ _ _ W)).
  - intros H. simpl. now rewrite (get_none trim _ (as_none _ H)).
Qed.
Print Assumptions C68_messages.

(** So the text of what is around the type error is lost, whatever it is: two
    errors with the same type error inside become the same. The code that
    inserts the text of the wrapping errors is never reached, because
    [errors.As] looks through them. *)
Theorem C68_context_lost : forall trim l ctx1 ctx2 e1 e2,
  wraps (TypeError l) ctx1 e1 -> wraps (TypeError l) ctx2 e2 ->
  fix_yaml_error trim (Some e1) = fix_yaml_error trim (Some e2).
Proof.
  intros trim l ctx1 ctx2 e1 e2 W1 W2. simpl.
  now rewrite (get_some trim _ _ (as_wraps _ _ _ W1)), (get_some trim _ _ (as_wraps _ _ _ W2)).
Qed.
Print Assumptions C68_context_lost.

Theorem C68_context_refuted :
  ~ (forall trim l ctx e r, (forall t y, trim (t ++ ": " ++ y)%string y = t) ->
       wraps (TypeError l) ctx e -> fix_yaml_error trim (Some e) = Some r ->
       forall x, In x ctx -> exists p q, error_text r = (p ++ x ++ q)%string).
Proof.
  intros H.
  pose (trim := fun t y : string => substring 0 (String.length t - String.length y - 2) t).
  assert (T : forall t y, trim (t ++ ": " ++ y)%string y = t).
  { intros t y. unfold trim.
    assert (L : forall a b, String.length (a ++ b) = String.length a + String.length b).
    { induction a as [|c a IH]; intros b; simpl; auto. }
    rewrite L. cbn [String.append String.length].
    replace (String.length t + S (S (String.length y)) - String.length y - 2) with (String.length t) by Lia.lia.
    induction t as [|c t IH]; [now destruct y|]. simpl. now rewrite IH. }
  assert (W : wraps (TypeError ["m"]) ["facet"] (Wrapping "facet" (TypeError ["m"]))) by (repeat constructor).
  destruct (H trim ["m"] ["facet"] _ (Plain "m") T W eq_refl "facet" (or_introl eq_refl)) as (p & q & E).
  simpl in E. destruct p as [|c [|c' p]]; simpl in E; discriminate.
Qed.
Print Assumptions C68_context_refuted.

Example C68_case :
  let e := Wrapping "minLength: yaml: unmarshal errors" (TypeError ["line 3: cannot unmarshal !!str `x` into int64"]) in
  (exists ctx, wraps (TypeError ["line 3: cannot unmarshal !!str `x` into int64"]) ctx e)
  /\ fix_yaml_error (fun t _ => t) (Some e) = Some (Plain "line 3: cannot unmarshal !!str `x` into int64")
  /\ fix_yaml_error (fun t _ => t) (Some (Wrapping "open: no such file" (Plain "no such file")))
     = Some (Wrapping "open: no such file" (Plain "no such file")).
Proof. cbv zeta. split; [exists ["minLength: yaml: unmarshal errors"]; repeat constructor|]. split; reflexivity. Qed.

Example C68_case_two :
  fix_yaml_error (fun t _ => t) (Some (TypeError ["line 3: a"; "line 4: b"; "line 7: c"]))
  = Some (Plain "line 3: a: line 4: b: line 7: c").
Proof. reflexivity. Qed.
