(** Validation with the types of a parsed and unwrapped model returns, with the
    right verdict (C12). *)
From Coq Require Import ZArith List String Bool Lia.
From Verif Require Import Base Scalars Heap Validate Names Yaml Pipeline Spec_Validate Spec_Model Spec_Pipeline Decode Parse Spec_Calm
  Spec_Scalars Validate_proofs Props_Validate Props_Parse Props_Fresh Props_Calm Props_Quiet.
From Verif Require Model_returns.
Import ListNotations.
Open Scope string_scope.
Open Scope list_scope.
Open Scope nat_scope.

(** A document without unions and without sequences and mappings in its enums is
    parsed and unwrapped. Then Validate returns for every type of every fragment
    and every value, however deep the value is and however the types contain
    themselves. It returns nil exactly for the values of the type. *)
Theorem C12_parsed_partial : forall E n O o1 o2 o3 text path ep p m q1 q2 R s loc a v,
  parse_string E n O o1 o2 o3 false false text path = (Ok ep, p) ->
  plain_enums (heap (p_st p)) -> union_free (heap (p_st p)) ->
  unwrap_shapes m q1 q2 (raml_of p) (p_st p) = (Ok R, s) -> declared_in R loc a ->
  returns O (heap s) a v
  /\ (oracle_wf O -> hash_injective O -> value_wf v ->
      (returns_nil O (heap s) a v <-> valid O (heap s) a v) /\ (returns_error O (heap s) a v <-> ~ valid O (heap s) a v)).
Proof.
  intros E n O o1 o2 o3 text path ep p m q1 q2 R s loc a v P Pl Un U D.
  pose proof (Model_returns.unwrapped_return E n O o1 o2 o3 text path ep p P Pl Un m q1 q2 R s loc a U D O v) as Rt.
  split; [exact Rt|]. intros HO HI Hv. destruct (C12_verdict_right_partial O (heap s) a v HO HI Hv) as [T F].
  split; (split; [assumption|]); intros V; destruct Rt as [Rt|Rt]; auto; [elim (F Rt V)|elim (V (T Rt))].
Qed.
Print Assumptions C12_parsed_partial.

(** The library of [d46q]: its type Base contains itself, and a value nested
    three deep is accepted, one with a wrong colour at the bottom rejected. *)
Definition deep (c : string) : gval :=
  GMap [("id", GStr "red"); ("next", GMap [("id", GStr "blue"); ("next", GMap [("id", GStr c)])])].
Definition unwrapped (r : res entry_point * pst) : res raml * st := unwrap_shapes 40 ["a.raml"] ["a.raml"] (raml_of (snd r)) (p_st (snd r)).
Definition base_type (R : raml) : option addr :=
  match r_libs R with lib :: _ => oget "Base" (l_types lib) | [] => None end.
Definition verdicts (r : res raml * st) : option (res unit * res unit) :=
  match r with
  | (Ok R, s) => match base_type R with Some a => Some (validate 40 exO (heap s) a (deep "green"), validate 40 exO (heap s) a (deep "pink")) | None => None end
  | _ => None
  end.
Definition holds_rec (r : res raml * st) : bool :=
  existsb (fun c => match c with CBase b => match b_shape b with Some (SRec _) => true | _ => false end | _ => false end) (heap (snd r)).

Example C12_parsed_case :
  (exists ep p, parse1 d46q 40 false false = (Ok ep, p) /\ plain_enums (heap (p_st p)) /\ union_free (heap (p_st p)))
  /\ holds_rec (unwrapped (parse1 d46q 40 false false)) = true
  /\ verdicts (unwrapped (parse1 d46q 40 false false)) = Some (Ok tt, Err).
Proof.
  split; [|split; vm_compute; reflexivity].
  destruct (quiet_b_ok _ d46q_quiet) as ((ep & p & Q) & A & B & _). rewrite Q in A, B. exists ep, p. split; [exact Q|]. split; [exact A|exact B].
Qed.
