(** Examples that are marked as not strict (C83). *)
From Coq Require Import ZArith List String Bool Ascii Lia.
From Verif Require Import Base Scalars Heap Validate Names Yaml Pipeline Decode Parse
  Props_Validate Props_Parse Props_Fresh Props_Added Props_Documents.
Import ListNotations.
Open Scope string_scope.
Open Scope list_scope.
Open Scope nat_scope.

(** The content of a mapping with the entries [l]. *)
Definition content_of (l : list (ynode * ynode)) : list ynode := flat_map (fun kv => [fst kv; snd kv]) l.

Lemma value_beside l k s l' : y_value k = "strict" ->
  value_entry (content_of (l ++ (k, s) :: l')) = value_entry (content_of (l ++ l')).
Proof.
  intros Q. induction l as [|[k0 v0] l IH]; cbn.
  - now rewrite Q.
  - destruct (String.eqb (y_value k0) "value"); auto.
Qed.

Lemma entries_beside E loc l k s l' : y_value k = "strict" -> d_strict E s = true -> forall p,
  example_entries E loc (content_of (l ++ (k, s) :: l')) p = example_entries E loc (content_of (l ++ l')) p.
Proof.
  intros Q D. induction l as [|[k0 v0] l IH]; intros p.
  - cbn. rewrite Q, D. reflexivity.
  - cbn [content_of app flat_map fst snd example_entries]. unfold dbind. 
    match goal with |- (let (_, _) := ?m p in _) = _ => destruct (m p) as [[]] end; auto; apply IH.
Qed.

(** * C83 *)

(** An example with the entry [strict] is read as if it were not there, wherever
    it stands: the same value, the same annotations, the same verdict. *)
Theorem C83_not_read : forall E loc tag text l k s l' p,
  y_value k = "strict" -> d_strict E s = true ->
  In "value" (map (fun kv => y_value (fst kv)) (l ++ l')) ->
  example E loc (Y KMap tag text (content_of (l ++ (k, s) :: l'))) p = example E loc (Y KMap tag text (content_of (l ++ l'))) p.
Proof.
  intros E loc tag text l k s l' p Q D V. unfold example. cbn [y_kind y_content]. rewrite (value_beside _ _ _ _ Q).
  assert (X : exists v, value_entry (content_of (l ++ l')) = Ok (Some v)).
  { revert V. generalize (l ++ l'). intros m. induction m as [|[k0 v0] m IH]; cbn; [intros []|]. destruct (String.eqb_spec (y_value k0) "value"); eauto.
    intros [N|I]; [contradiction|]. auto. }
  destruct X as (v & ->). unfold dbind, dlift. rewrite (entries_beside _ _ _ _ _ _ Q D). reflexivity.
Qed.
Print Assumptions C83_not_read.

(** The claim that such an example need not conform: [T: {type: boolean, example:
    {value: x, strict: false}}] is refused like the same without [strict]. *)
Definition checked83 (ex : list (string * ynode)) : res entry_point :=
  fst (parse_string (typed (library_of [("T", mp (("type", sc "boolean") :: ex))])) 40 exO ["a.raml"] ["a.raml"] ["a.raml"] false true (lib_head ++ "a.raml")%string "a.raml").

Theorem C83_strict_refuted :
  checked83 [] = Ok (ELib 0)
  /\ checked83 [("example", mp [("value", truth "true"); ("strict", truth "false")])] = Ok (ELib 0)
  /\ checked83 [("example", mp [("value", sc "x"); ("strict", truth "false")])] = Err
  /\ checked83 [("example", mp [("strict", truth "false"); ("value", sc "x")])] = Err
  /\ checked83 [("examples", mp [("e", mp [("value", sc "x"); ("strict", truth "false")])])] = Err.
Proof. repeat (split; [vm_compute; reflexivity|]). vm_compute. reflexivity. Qed.
Print Assumptions C83_strict_refuted.

(** The case of [C83_not_read]. *)
Example C83_not_read_case : forall p,
  example (typed []) "a.raml" (mp [("displayName", sc "one"); ("strict", truth "false"); ("value", sc "x")]) p
  = example (typed []) "a.raml" (mp [("displayName", sc "one"); ("value", sc "x")]) p
  /\ fst (example (typed []) "a.raml" (mp [("value", sc "x")]) p) = Ok (GStr "x").
Proof.
  intros p. split; [|reflexivity].
  apply (C83_not_read (typed []) "a.raml" "!!map" "" [(sc "displayName", sc "one")] (sc "strict") (truth "false") [(sc "value", sc "x")] p eq_refl eq_refl).
  right. now left.
Qed.
