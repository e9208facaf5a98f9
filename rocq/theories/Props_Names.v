(** Property theorems C20-C23 and C50. *)
From Coq Require Import ZArith List String Bool Ascii.
From Verif Require Import Base Names Spec_Names Names_proofs.
Import ListNotations.
Open Scope string_scope.
Open Scope list_scope.
Open Scope nat_scope.

(** * C20 *)
Theorem C20_inference : forall names t, identify_type names = Ok t <-> inferred names t.
Proof. exact identify_iff. Qed.
Print Assumptions C20_inference.

Theorem C20_conflicts_rejected : forall names,
  identify_type names = Err <-> ~ exists t, inferred names t.
Proof. exact identify_err. Qed.
Print Assumptions C20_conflicts_rejected.

Theorem C20_order_independent : forall names names',
  (forall n, In n names <-> In n names') -> identify_type names = identify_type names'.
Proof. exact identify_order. Qed.
Print Assumptions C20_order_independent.

Example C20_cases :
  identify_type ["description"; "maxLength"; "fileTypes"] = Ok "file"
  /\ identify_type ["fileTypes"; "maxLength"; "pattern"] = Err
  /\ identify_type ["enum"] = Ok "string"
  /\ inferred ["items"; "example"; "minItems"] "array".
Proof.
  repeat split; try reflexivity.
  right; right; right; left. split; [reflexivity|]. split.
  - exists "items". split; [now left|]. simpl. tauto.
  - intros n. simpl. intros [<-|[<-|[<-|[]]]] H; auto; simpl in H;
      decompose [or] H; try discriminate; contradiction.
Qed.

(** * C21 *)
Theorem C21_declaration : forall compiles key required d,
  declare_property compiles key required = Ok d <-> declares compiles key required d.
Proof. exact declare_iff. Qed.
Print Assumptions C21_declaration.

Example C21_cases :
  declare_property (fun _ => true) "name?" None = Ok (DProp "name" false)
  /\ declare_property (fun _ => true) "name?" (Some true) = Ok (DProp "name?" true)
  /\ declare_property (fun _ => true) "name" None = Ok (DProp "name" true)
  /\ declare_property (fun _ => true) "/^x-/" None = Ok (DPattern "/^x-/" "^x-")
  /\ declare_property (fun _ => true) "/^x-/?" None = Err
  /\ declare_property (fun _ => true) "/" None = Ok (DProp "/" true).
Proof. repeat split. Qed.

(** * C22 *)
Theorem C22_library_types : forall L l name a,
  lib_ref_type L l name = Ok a <-> denotes l_types L l name a.
Proof. exact (lib_reference_iff l_types). Qed.
Print Assumptions C22_library_types.

Theorem C22_library_annotation_types : forall L l name a,
  lib_ref_annot L l name = Ok a <-> denotes l_annots L l name a.
Proof. exact (lib_reference_iff l_annots). Qed.
Print Assumptions C22_library_annotation_types.

Theorem C22_otherwise_error : forall L l name, linked L (l_uses l) ->
  (lib_ref_type L l name = Err <-> ~ exists a, denotes l_types L l name a)
  /\ (lib_ref_annot L l name = Err <-> ~ exists a, denotes l_annots L l name a).
Proof. exact (fun L l name H => conj (lib_reference_err l_types L l name H) (lib_reference_err l_annots L l name H)). Qed.
Print Assumptions C22_otherwise_error.

Theorem C22_datatype : forall sel L uses name a,
  dt_reference sel L uses name = Ok a <->
  exists alias T la lib, name = (alias ++ "." ++ T)%string /\ no_dot T
    /\ oget alias uses = Some (Some la) /\ nth_error L la = Some lib /\ oget T (sel lib) = Some a.
Proof. exact dt_reference_iff. Qed.
Print Assumptions C22_datatype.

Example C22_cases :
  let L := [Lib [("T", 5); ("a.U", 6)] [] [("a.b", Some 1); ("a", Some 1)]; Lib [("T", 7); ("U", 8)] [] []] in
  let l := Lib [("T", 5); ("a.U", 6)] [] [("a.b", Some 1); ("a", Some 1)] in
  linked L (l_uses l)
  /\ lib_ref_type L l "T" = Ok 5 /\ lib_ref_type L l "a.b.T" = Ok 7 /\ lib_ref_type L l "a.U" = Ok 6
  /\ lib_ref_type L l "a.X" = Err /\ lib_ref_type L l "b.T" = Err /\ lib_ref_type L l "U" = Err.
Proof.
  intros L l. split; [|repeat split].
  intros k v E. simpl in E. exists 1, (Lib [("T", 7); ("U", 8)] [] []). split; [|reflexivity].
  destruct (k =? "a.b")%string; [congruence|]. destruct (k =? "a")%string; congruence.
Qed.

(** * C23 *)
Theorem C23_read_head : forall data h, fst (read_head (Rd data 0)) = Ok h <-> first_line data h.
Proof. exact read_head_iff. Qed.
Print Assumptions C23_read_head.

Theorem C23_read_head_unterminated : forall data,
  fst (read_head (Rd data 0)) = Err <-> ~ In newline (chars data).
Proof. exact read_head_fails. Qed.
Print Assumptions C23_read_head_unterminated.

Theorem C23_read_head_rewinds : forall r h r', read_head r = (Ok h, r') -> r' = Rd (rd_data r) 0.
Proof. exact read_head_restores. Qed.
Print Assumptions C23_read_head_rewinds.

Theorem C23_identify : forall head k, identify_fragment head = Ok k <-> header k = Some head.
Proof. exact identify_fragment_iff. Qed.
Print Assumptions C23_identify.

Theorem C23_check_kind : forall name data k,
  (fst (check_kind name (Rd data 0) k) = Ok tt <->
   (k = KDataType /\ exists p, name = (p ++ ".json")%string)
   \/ (exists h, first_line data h /\ header k = Some h))
  /\ (fst (check_kind name (Rd data 0) k) <> Ok tt -> fst (check_kind name (Rd data 0) k) = Err).
Proof.
  intros name data k. split; [apply check_kind_iff|]. unfold check_kind.
  destruct (kind_eqb k KDataType && has_suffix ".json" name)%bool; [intros H; now elim H|]. destruct (read_head _) as [[h| | |] r]; auto.
  destruct (identify_fragment h) as [k'| | |]; auto. destruct (kind_eqb k' k); [intros H; now elim H|auto].
Qed.
Print Assumptions C23_check_kind.

(** A file that passes the check is then decoded from its beginning. *)
Theorem C23_check_rewinds : forall name data k r', check_kind name (Rd data 0) k = (Ok tt, r') -> r' = Rd data 0.
Proof.
  intros name data k r'. unfold check_kind. destruct (kind_eqb k KDataType && has_suffix ".json" name)%bool; [congruence|].
  destruct (read_head (Rd data 0)) as [[h| | |] r] eqn:R; try discriminate. apply read_head_restores in R. cbn in R. subst.
  destruct (identify_fragment h) as [k'| | |]; try discriminate. destruct (kind_eqb k' k); congruence.
Qed.
Print Assumptions C23_check_rewinds.

Example C23_cases :
  let data := ("#%RAML 1.0 Library" ++ String " " (String "013" (String newline "types:")))%string in
  fst (read_head (Rd data 0)) = Ok "#%RAML 1.0 Library"
  /\ fst (check_kind "x.raml" (Rd data 0) KLibrary) = Ok tt
  /\ fst (check_kind "x.raml" (Rd data 0) KDataType) = Err
  /\ identify_fragment "#%RAML 1.0 library" = Err.
Proof. repeat split. Qed.

(** * C50 *)
Theorem C50_exit_status_refuted :
  ~ (forall parse args, args <> [] ->
       (cli_exit parse args <> 0%Z <-> exists f, In f args /\ parse f = false)).
Proof.
  intros H. destruct (H (fun f => String.eqb f "good") ["bad"; "good"]) as [_ H2]; [discriminate|].
  apply H2; [|reflexivity]. exists "bad". split; [now left|reflexivity].
Qed.
Print Assumptions C50_exit_status_refuted.

(** What does hold: the last file alone decides. *)
Theorem C50_last_file_decides_partial : forall parse f args,
  cli_exit parse (f :: args) = if parse (last args f) then 0%Z else 1%Z.
Proof. exact cli_last. Qed.
Print Assumptions C50_last_file_decides_partial.
