(** Property theorem C79: a RAML object that is used for several parses. *)
From Coq Require Import ZArith List String Bool Ascii Lia.
From Verif Require Import Base Scalars Heap Validate Names Yaml Pipeline Spec_Pipeline Decode Parse Spec_Model Spec_Parse Spec_Resolve Spec_Decode
  Props_Validate Props_Parse Props_Added Props_Documents.
From Verif Require Parse_fresh Again_proofs.
Import ListNotations.
Open Scope string_scope.
Open Scope list_scope.
Open Scope nat_scope.

(** * Files that show where the claim fails *)

Definition lib79 (n : string) (l : list (string * ynode)) : string * string * ynode := (n, lib_head, mp [("types", mp l)]).
(** [unfinished]: A is of an unknown type and B has no proper length. [noted]: A
    has an annotation that is not declared. *)
Definition d79 : disk :=
  [lib79 "unfinished" [("A", sc "Missing"); ("B", mp [("type", sc "string"); ("minLength", sc "few")])];
   lib79 "noted" [("A", mp [("type", sc "string"); ("(note)", sc "x")])];
   lib79 "fixed" [("A", sc "string")];
   lib79 "changed" [("A", sc "integer"); ("B", sc "A")];
   lib79 "other" [("C", sc "integer"); ("D", sc "C")]].
(** ParseFromString with one of these texts under the name [a.raml]. *)
Definition parse79 (t : string) (p : pst) : res entry_point * pst :=
  parse_fragment (typed d79) 40 exO ["a.raml"] ["a.raml"] ["a.raml"] false false (lib_head ++ t)%string "a.raml" p.
(** The results of several parses with one RAML object. *)
Fixpoint verdicts79 (l : list string) (p : pst) : list (res entry_point) :=
  match l with [] => [] | t :: l' => fst (parse79 t p) :: verdicts79 l' (snd (parse79 t p)) end.
Definition kind79 (p : pst) (l : nat) (T : string) : option string :=
  match nth_error (p_libs p) l with
  | Some lib => match oget T (l_types lib) with
                | Some x => option_map b_type (get_base (heap (p_st p)) x)
                | None => None
                end
  | None => None
  end.

(** After a parse that failed, the next one with a text that is fine fails too:
    once when a type was left unresolved, always when an annotation was. *)
Theorem C79_leftover_refuted :
  verdicts79 ["fixed"; "fixed"] new_raml = [Ok (ELib 0); Ok (ELib 1)]
  /\ verdicts79 ["unfinished"; "fixed"; "fixed"] new_raml = [Err; Err; Ok (ELib 1)]
  /\ verdicts79 ["noted"; "fixed"; "fixed"; "fixed"] new_raml = [Err; Err; Err; Err].
Proof. repeat split; vm_compute; reflexivity. Qed.
Print Assumptions C79_leftover_refuted.

(** After a parse that succeeded, the names in another text of the same file
    lead to the types of the first text, or nowhere. *)
Theorem C79_stale_refuted :
  (let p := snd (parse79 "changed" new_raml) in kind79 p 0 "A" = Some "integer" /\ kind79 p 0 "B" = Some "integer")
  /\ (let p := snd (parse79 "changed" (snd (parse79 "fixed" new_raml))) in
      verdicts79 ["fixed"; "changed"] new_raml = [Ok (ELib 0); Ok (ELib 1)]
      /\ kind79 p 1 "A" = Some "integer" /\ kind79 p 1 "B" = Some "string")
  /\ verdicts79 ["other"] new_raml = [Ok (ELib 0)] /\ verdicts79 ["fixed"; "other"] new_raml = [Ok (ELib 0); Err].
Proof. repeat split; vm_compute; reflexivity. Qed.
Print Assumptions C79_stale_refuted.

(** * What holds *)

(** A RAML object after some parses that all succeeded, without unwrapping or
    validation; the files may change in between. *)
Inductive used : pst -> Prop :=
| us_new : used new_raml
| us_again E n O o1 o2 o3 text path ep p p' :
    used p -> parse_fragment E n O o1 o2 o3 false false text path p = (Ok ep, p') -> used p'.

Lemma used_rested p : used p -> Again_proofs.rested p.
Proof.
  induction 1 as [|E n O o1 o2 o3 text path ep p p' U IH H]; [exact Again_proofs.rested_new|].
  exact (Again_proofs.again_rested E n O o1 o2 o3 text path p p' ep IH H).
Qed.

(** The model is complete, IDs are unique, and every annotation has its type. *)
Theorem C79_complete_partial : forall p, used p ->
  fresh_model (heap (p_st p)) /\ numbered (p_st p) /\ declared_ok (heap (p_st p)) (raml_of p)
  /\ (forall x b, get_base (heap (p_st p)) x = Some b -> settled b = true)
  /\ forall e, In e (p_exts p) -> exists a, e_def e = Some a /\ Spec_Pipeline.refers (raml_of p) (e_loc e) (e_name e) a.
Proof.
  intros p U. pose proof (used_rested p U) as R.
  destruct (Parse_fresh.good_fresh _ (Again_proofs.rested_good p R)) as (A & B & C). repeat (split; auto).
  - exact (Parse_fresh.fine_declared _ _ (proj1 R)).
  - inversion U as [Q|E n O o1 o2 o3 text path ep p0 p1 U0 H Q]; [intros e []|]. subst p1. intros e J.
    destruct (Again_proofs.again_annotated E n O o1 o2 o3 text path p0 p ep (used_rested p0 U0) H e J) as (a & Q1 & Q2 & _). eauto.
Qed.
Print Assumptions C79_complete_partial.

(** Another parse leaves the types, with their maps and lists, the libraries and
    the files of the earlier ones as they are; and what it adds is as written,
    for every file that was not there. *)
Theorem C79_kept_partial : forall E n O o1 o2 o3 text path ep p p',
  used p -> parse_fragment E n O o1 o2 o3 false false text path p = (Ok ep, p') ->
  (forall x b, get_base (heap (p_st p)) x = Some b -> get_base (heap (p_st p')) x = Some b
     /\ forall c v, owns b c -> nth_error (heap (p_st p)) c = Some v -> nth_error (heap (p_st p')) c = Some v)
  /\ (forall q f, oget q (p_frags p) = Some f -> oget q (p_frags p') = Some f)
  /\ (forall l lib, nth_error (p_libs p) l = Some lib -> nth_error (p_libs p') l = Some lib)
  /\ forall q f, oget q (p_frags p) = None -> oget q (p_frags p') = Some f ->
     exists text', ((q = path /\ text' = text) \/ e_read (d_y E) q = Some text') /\ fragment_says E p' q text' f.
Proof.
  intros E n O o1 o2 o3 text path ep p p' U H. pose proof (used_rested p U) as R.
  split; [exact (Again_proofs.again_kept E n O o1 o2 o3 text path p p' ep R H)|].
  destruct (Again_proofs.again_grown E n O o1 o2 o3 text path p p' ep R H) as [A B]. split; [exact A|]. split; [exact B|].
  exact (Again_proofs.again_written E n O o1 o2 o3 text path p p' ep R H).
Qed.
Print Assumptions C79_kept_partial.

(** Two files that are parsed in turn. *)
Example C79_case :
  let parse q t p := parse_fragment (typed d79) 40 exO [] [] [] false false (lib_head ++ t)%string q p in
  let p := snd (parse "a.raml" "changed" new_raml) in let p' := snd (parse "b.raml" "other" p) in
  used p /\ fst (parse "b.raml" "other" p) = Ok (ELib 1)
  /\ kind79 p' 0 "B" = Some "integer" /\ kind79 p' 1 "D" = Some "integer" /\ oget "b.raml" (p_frags p) = None.
Proof.
  cbv zeta. split; [|repeat split; vm_compute; reflexivity].
  eapply (us_again (typed d79) 40 exO [] [] [] (lib_head ++ "changed")%string "a.raml" (ELib 0)); [exact us_new|]. rewrite (surjective_pairing (parse_fragment _ _ _ _ _ _ _ _ _ _ _)) at 1. f_equal.
Qed.
