(** Model of YAML nodes (gopkg.in/yaml.v3 [yaml.Node]) and of the data nodes
    built from them, /repo/node.go and /repo/example.go. No proofs here. *)
From Coq Require Import ZArith List String Bool Ascii.
From Verif Require Import Base Names.
Import ListNotations.
Open Scope string_scope.
Open Scope list_scope.

(** Node kinds tested in /repo/node.go:183-210. [KOther] is any other value of
    [Kind] (the zero value). *)
Inductive ykind := KDoc | KSeq | KMap | KScalar | KAlias | KOther.

(** A [yaml.Node]: kind, tag, value and content. Line, column, style,
    comments and the target of aliases are left out. *)
Inductive ynode := Y (k : ykind) (tag value : string) (content : list ynode).

(** Field accessors of the record above. *)
Definition y_kind (n : ynode) := let 'Y k _ _ _ := n in k.
Definition y_tag (n : ynode) := let 'Y _ t _ _ := n in t.
Definition y_value (n : ynode) := let 'Y _ _ v _ := n in v.
Definition y_content (n : ynode) := let 'Y _ _ _ c := n in c.

(** External functions, quantified over everywhere. [e_scalar tag value]:
    [node.Decode(&val)] of a scalar (/repo/node.go:130), [None] on error.
    [e_join dir_of value]: [filepath.Join(filepath.Dir(location), value)]
    (/repo/node.go:43-44, 145-146). [e_ext]: [filepath.Ext] (57, 161).
    [e_read]: opening and reading a file (45, 60; 148, 164), [None] on error.
    [e_yaml]: [yaml.Decoder.Decode] into a yaml.Node (73-75, 171-173).
    [e_json]: [json.Decoder.Decode] / [json.Unmarshal] (66-68, 98-99). *)
Record yenv := {
  e_scalar : string -> string -> option gval;
  e_join : string -> string -> string;
  e_ext : string -> string;
  e_read : string -> option string;
  e_yaml : string -> option ynode;
  e_json : string -> option gval
}.

(** The loop over mapping pairs, /repo/node.go:194-208: [properties[key] =
    data], values converted in order, first error returned. The result is the
    Go map as an association list. *)
Fixpoint map_pairs (conv : ynode -> res gval) (l : list ynode) (m : list (string * gval)) : res gval :=
  match l with
  | k :: v :: l' => rbind (conv v) (fun d => map_pairs conv l' (oset (y_value k) d m))
  | _ => Ok (GMap m)
  end.

(** The loop over sequence items, /repo/node.go:211-218. *)
Fixpoint seq_items (conv : ynode -> res gval) (l : list ynode) : res (list gval) :=
  match l with
  | [] => Ok []
  | x :: l' => rbind (conv x) (fun d => rbind (seq_items conv l') (fun ds => Ok (d :: ds)))
  end.

(** yamlNodeToDataNode, /repo/node.go:182-221, given what is done with
    scalars. A document without content panics ([node.Content[0]]). *)
Fixpoint to_data (scalar : ynode -> res gval) (n : ynode) {struct n} : res gval :=
  let conv := to_data scalar in
  let 'Y k tag value content := n in
  match k with
  | KOther | KAlias => Err
  | KDoc => match content with [] => Panic | c :: _ => conv c end
  | KScalar => scalar n
  | KMap =>
      if negb (Nat.even (List.length content)) then Err
      else (fix pairs (l : list ynode) (m : list (string * gval)) : res gval :=
              match l with
              | k :: v :: l' => rbind (conv v) (fun d => pairs l' (oset (y_value k) d m))
              | _ => Ok (GMap m)
              end) content []
  | KSeq =>
      rbind ((fix items (l : list ynode) : res (list gval) :=
                match l with
                | [] => Ok []
                | x :: l' => rbind (conv x) (fun d => rbind (items l') (fun ds => Ok (d :: ds)))
                end) content) (fun ds => Ok (GArr ds))
  end.

Section Data.
Variable E : yenv.

(** The part of scalarNodeToDataNode common to both values of [isInclude],
    /repo/node.go:127-138; [inc] is the !include case. *)
Definition scalar_data (inc : ynode -> res gval) (n : ynode) : res gval :=
  let tag := y_tag n in
  if String.eqb tag "!!str" then Ok (GStr (y_value n))
  else if String.eqb tag "!!timestamp" then Ok (GStr (y_value n))
  else if String.eqb tag "!include" then inc n
  else match e_scalar E tag (y_value n) with Some v => Ok v | None => Err end.

(** scalarNodeToDataNode and yamlNodeToDataNode with [isInclude = true]:
    includes are refused, /repo/node.go:139-141. *)
Definition data_included (n : ynode) : res gval := to_data (scalar_data (fun _ => Err)) n.

(** The !include case with [isInclude = false], /repo/node.go:142-178. Reading
    a file in one step stands for open and io.ReadAll / the decoder's reads. *)
Definition include_scalar (loc : string) (n : ynode) : res gval :=
  let path := e_join E loc (y_value n) in
  match e_read E path with
  | None => Err
  | Some text =>
      if existsb (String.eqb (e_ext E (y_value n))) [".yaml"; ".yml"] then
        match e_yaml E text with Some d => data_included d | None => Err end
      else Ok (GStr text)
  end.

(** yamlNodeToDataNode with [isInclude = false], /repo/node.go:182-221. *)
Definition data_node (loc : string) (n : ynode) : res gval :=
  to_data (scalar_data (include_scalar loc)) n.

(** makeIncludedNode, /repo/node.go:42-90; only the value of the Node is kept. *)
Definition included_node (loc : string) (n : ynode) : res gval :=
  let path := e_join E loc (y_value n) in
  match e_read E path with
  | None => Err
  | Some text =>
      let ext := e_ext E (y_value n) in
      if String.eqb ext ".json" then
        match e_json E text with Some v => Ok v | None => Err end
      else if existsb (String.eqb ext) [".yaml"; ".yml"] then
        match e_yaml E text with Some d => data_node path d | None => Err end
      else Ok (GStr text)
  end.

(** makeRootNode, /repo/node.go:92-111, and makeYamlNode, 113-124. *)
Definition root_node (loc : string) (n : ynode) : res gval :=
  if String.eqb (y_tag n) "!include" then included_node loc n
  else
    match y_value n with
    | String c _ =>
        if Ascii.eqb c "{"%char then
          match e_json E (y_value n) with Some v => Ok v | None => Err end
        else data_node loc n
    | EmptyString => data_node loc n
    end.

End Data.
