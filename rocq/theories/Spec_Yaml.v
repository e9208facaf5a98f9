(** Specification of the data denoted by a YAML tree (C49). *)
From Coq Require Import ZArith List String Bool Ascii.
From Verif Require Import Base Names Yaml.
Import ListNotations.
Open Scope string_scope.
Open Scope list_scope.

(** The pairs of a mapping's content. *)
Inductive pairs_of : list ynode -> list (string * ynode) -> Prop :=
| po_nil : pairs_of [] []
| po_cons : forall k v l ps, pairs_of l ps -> pairs_of (k :: v :: l) ((y_value k, v) :: ps).

(** [(k, v)] is the last pair with key [k]. *)
Definition last_pair {A} (ps : list (string * A)) (k : string) (v : A) : Prop :=
  exists before after, ps = before ++ (k, v) :: after /\ ~ In k (map fst after).

(** [data inc n v]: the tree [n] denotes [v], where [inc path v] says what an
    include denotes. *)
Section Denote.
Variable E : yenv.
Variable inc : ynode -> gval -> Prop.

Inductive data : ynode -> gval -> Prop :=
| da_doc : forall tag value c cs v, data c v -> data (Y KDoc tag value (c :: cs)) v
| da_str : forall value cs, data (Y KScalar "!!str" value cs) (GStr value)
| da_time : forall value cs, data (Y KScalar "!!timestamp" value cs) (GStr value)
| da_include : forall value cs v, inc (Y KScalar "!include" value cs) v ->
    data (Y KScalar "!include" value cs) v
| da_scalar : forall tag value cs v, ~ In tag ["!!str"; "!!timestamp"; "!include"] ->
    e_scalar E tag value = Some v -> data (Y KScalar tag value cs) v
| da_seq : forall tag value cs vs, Forall2 data cs vs -> data (Y KSeq tag value cs) (GArr vs)
| da_map : forall tag value cs ps (vs : list (string * gval)) m,
    pairs_of cs ps ->
    Forall2 (fun p q => fst p = fst q /\ data (snd p) (snd q)) ps vs ->
    NoDup (map fst m) ->
    (forall k v, In (k, v) m <-> last_pair vs k v) ->
    data (Y KMap tag value cs) (GMap m).
End Denote.

(** Inside an included file nothing can be included. *)
Definition data_flat (E : yenv) : ynode -> gval -> Prop := data E (fun _ _ => False).

(** What [!include value] denotes in the document at [loc]. *)
Definition includes (E : yenv) (loc : string) (n : ynode) (v : gval) : Prop :=
  exists text, e_read E (e_join E loc (y_value n)) = Some text
    /\ ((In (e_ext E (y_value n)) [".yaml"; ".yml"]
         /\ exists d, e_yaml E text = Some d /\ data_flat E d v)
        \/ (~ In (e_ext E (y_value n)) [".yaml"; ".yml"] /\ v = GStr text)).

(** Nodes that occur in a tree as data (mapping keys are not data). *)
Inductive occurs : ynode -> ynode -> Prop :=
| oc_self : forall n, occurs n n
| oc_doc : forall t v c cs m, occurs c m -> occurs (Y KDoc t v (c :: cs)) m
| oc_item : forall t v cs c m, In c cs -> occurs c m -> occurs (Y KSeq t v cs) m
| oc_value : forall t v cs ps k c m, pairs_of cs ps -> In (k, c) ps -> occurs c m ->
    occurs (Y KMap t v cs) m.

(** Mappings come in pairs and documents have content: what yaml.v3 builds. *)
Inductive parsed : ynode -> Prop :=
| pa : forall k t v cs, Forall parsed cs ->
    (k = KDoc -> cs <> []) -> (k = KMap -> Nat.even (List.length cs) = true) -> parsed (Y k t v cs).

(** What an [example], [default] or annotation node at [loc] denotes. *)
Inductive root_denotes (E : yenv) (loc : string) (n : ynode) : gval -> Prop :=
| rd_json_file : forall text v, y_tag n = "!include" -> e_ext E (y_value n) = ".json" ->
    e_read E (e_join E loc (y_value n)) = Some text -> e_json E text = Some v -> root_denotes E loc n v
| rd_yaml_file : forall text d v, y_tag n = "!include" -> In (e_ext E (y_value n)) [".yaml"; ".yml"] ->
    e_read E (e_join E loc (y_value n)) = Some text -> e_yaml E text = Some d ->
    data E (includes E (e_join E loc (y_value n))) d v -> root_denotes E loc n v
| rd_text_file : forall text, y_tag n = "!include" -> ~ In (e_ext E (y_value n)) [".json"; ".yaml"; ".yml"] ->
    e_read E (e_join E loc (y_value n)) = Some text -> root_denotes E loc n (GStr text)
| rd_inline_json : forall s v, y_tag n <> "!include" -> y_value n = String "{" s ->
    e_json E (y_value n) = Some v -> root_denotes E loc n v
| rd_node : forall v, y_tag n <> "!include" -> (forall s, y_value n <> String "{" s) ->
    data E (includes E loc) n v -> root_denotes E loc n v.
