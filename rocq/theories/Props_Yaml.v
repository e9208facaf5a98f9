(** Property theorems C49. *)
From Coq Require Import ZArith List String Bool Ascii.
From Verif Require Import Base Names Yaml Spec_Yaml Heap Validate Spec_Validate Yaml_proofs.
Import ListNotations.
Open Scope string_scope.
Open Scope list_scope.
Open Scope nat_scope.

(** What is built is what the tree denotes. *)
Theorem C49_data_sound : forall E loc n v,
  root_node E loc n = Ok v -> root_denotes E loc n v.
Proof. exact root_node_sound. Qed.
Print Assumptions C49_data_sound.

(** Every tree that denotes something is accepted, with that value (up to the
    enumeration order of maps). *)
Theorem C49_data_complete : forall E loc n v,
  root_denotes E loc n v -> exists v', root_node E loc n = Ok v' /\ same_value v' v.
Proof. exact root_node_complete. Qed.
Print Assumptions C49_data_complete.

Theorem C49_no_panic : forall E loc n,
  (forall text d, e_yaml E text = Some d -> parsed d) -> parsed n ->
  (exists v, root_node E loc n = Ok v) \/ root_node E loc n = Err.
Proof. exact root_node_returns. Qed.
Print Assumptions C49_no_panic.

Theorem C49_alias_rejected : forall E loc n m v,
  occurs n m -> y_kind m = KAlias -> data_node E loc n <> Ok v.
Proof. exact alias_rejected. Qed.
Print Assumptions C49_alias_rejected.

(** Includes inside a file included below the root node are rejected... *)
Theorem C49_nested_include_rejected_partial : forall E loc n m text d m' v,
  occurs n m -> y_kind m = KScalar -> y_tag m = "!include" ->
  e_read E (e_join E loc (y_value m)) = Some text -> In (e_ext E (y_value m)) [".yaml"; ".yml"] ->
  e_yaml E text = Some d -> occurs d m' -> y_kind m' = KScalar -> y_tag m' = "!include" ->
  data_node E loc n <> Ok v.
Proof. exact nested_include_rejected. Qed.
Print Assumptions C49_nested_include_rejected_partial.

(** An environment with two YAML files: [a.yaml] is [[!include b.txt]]. *)
Definition exE : yenv := {|
  e_scalar := fun tag v => if String.eqb tag "!!null" then Some GNil else None;
  e_join := fun _ v => v;
  e_ext := fun v => if String.eqb v "a.yaml" then ".yaml" else ".txt";
  e_read := fun p => Some p;
  e_yaml := fun text => Some (Y KDoc "" "" [Y KSeq "!!seq" "" [Y KScalar "!include" "b.txt" []]]);
  e_json := fun _ => None |}.

(** ... but not when the outer include is the root node itself. *)
Theorem C49_nested_include_refuted :
  ~ (forall E loc n text d m v,
       y_kind n = KScalar -> y_tag n = "!include" ->
       e_read E (e_join E loc (y_value n)) = Some text -> In (e_ext E (y_value n)) [".yaml"; ".yml"] ->
       e_yaml E text = Some d -> occurs d m -> y_kind m = KScalar -> y_tag m = "!include" ->
       root_node E loc n <> Ok v).
Proof.
  intros H.
  apply (H exE "" (Y KScalar "!include" "a.yaml" []) "a.yaml"
           (Y KDoc "" "" [Y KSeq "!!seq" "" [Y KScalar "!include" "b.txt" []]])
           (Y KScalar "!include" "b.txt" []) (GArr [GStr "b.txt"])); try reflexivity.
  - simpl. tauto.
  - apply oc_doc. eapply oc_item; [now left|constructor].
Qed.
Print Assumptions C49_nested_include_refuted.

Example C49_case :
  data_node exE "" (Y KMap "!!map" "" [Y KScalar "!!str" "k" []; Y KScalar "!!str" "1" [];
                                       Y KScalar "!!str" "t" []; Y KScalar "!!timestamp" "2020-01-01" [];
                                       Y KScalar "!!str" "k" []; Y KSeq "!!seq" "" [Y KScalar "!!null" "" []]])
  = Ok (GMap [("k", GArr [GNil]); ("t", GStr "2020-01-01")])
  /\ data_node exE "" (Y KSeq "!!seq" "" [Y KAlias "" "x" []]) = Err
  /\ data_node exE "" (Y KSeq "!!seq" "" [Y KScalar "!include" "a.yaml" []]) = Err.
Proof. repeat split. Qed.
