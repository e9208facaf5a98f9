(** Property theorems about the generated lexer and parser of type expressions
    (C42): the automata in the generated files and the generated parser
    functions read the language of the grammar. *)
From Coq Require Import List ZArith String.
From Verif Require Import Atn Spec_Atn Rdt Rdt_gen Spec_Rdt Rdt_proofs Atn_scan Gen_sound Atn_parser.
Import ListNotations.
Open Scope list_scope.
Open Scope Z_scope.

(** The automaton in rdt_lexer.go makes of a text exactly the tokens that the
    rules give. *)
Theorem C42_lexer_automaton : forall s ts,
  scans lexer_atn (codes s) ts <-> exists toks, lexes s toks /\ ts = map tok_code toks.
Proof.
  intros s ts. split.
  - intros H. now apply (scan_codes _ _ H).
  - intros (toks & H & ->). now apply lexes_scans.
Qed.
Print Assumptions C42_lexer_automaton.

(** It reads nothing but ASCII, so bytes and code points are the same to it. *)
Theorem C42_lexer_ascii : forall cs ts, scans lexer_atn cs ts -> Forall (fun c => 0 <= c < 128) cs.
Proof. exact scan_ascii. Qed.
Print Assumptions C42_lexer_ascii.

(** The automaton in rdt_parser.go accepts exactly the tokens of expressions. *)
Theorem C42_parser_automaton : forall toks,
  follows parser_atn 0 [] (types (map tok_code toks)) <-> exists e, leaves e = toks.
Proof. exact parser_language. Qed.
Print Assumptions C42_parser_automaton.

(** Whatever the predictions, the generated parser comes to an end, and what it
    accepts is an expression with its tree. *)
Theorem C42_generated_any : forall pred toks n, sane parser_atn pred -> (List.length toks < n)%nat ->
  entrypoint pred n (map tok_code toks) = Bad
  \/ exists e, leaves e = toks /\ entrypoint pred n (map tok_code toks) = Ok (Node 0 [tree e; Leaf eof]) [].
Proof.
  intros pred toks n S L. destruct (sane_bounds _ S) as (P0 & P1 & P6).
  destruct (entrypoint pred n (map tok_code toks)) as [t r| |] eqn:E; [|auto|].
  - right. apply entrypoint_sound in E; auto. destruct E as (e & Q & -> & ->). eauto.
  - exfalso. revert E. apply entrypoint_ends; auto. now rewrite map_length.
Qed.
Print Assumptions C42_generated_any.

(** With predictions that are right, it accepts all of them. *)
Theorem C42_generated_parser : forall pred toks n t r,
  sane parser_atn pred -> viable parser_atn pred -> (List.length toks < n)%nat ->
  (entrypoint pred n (map tok_code toks) = Ok t r
   <-> exists e, leaves e = toks /\ t = Node 0 [tree e; Leaf eof] /\ r = []).
Proof. exact generated_iff. Qed.
Print Assumptions C42_generated_parser.

(** Such predictions exist. *)
Theorem C42_predictions : exists pred, sane parser_atn pred /\ viable parser_atn pred.
Proof. exists the_pick. exact (conj the_pick_sane the_pick_viable). Qed.
Print Assumptions C42_predictions.

(** Lexer automaton and generated parser together read what the model reads. *)
Theorem C42_generated_read : forall pred s e, sane parser_atn pred -> viable parser_atn pred ->
  (read_type s = Some e <-> exists ts, scans lexer_atn (codes s) ts
    /\ entrypoint pred (S (List.length ts)) ts = Ok (Node 0 [tree e; Leaf eof]) []).
Proof.
  intros pred s e S V. rewrite read_iff. split.
  - intros H. exists (map tok_code (leaves e)). split; [now apply lexes_scans|].
    apply generated_iff; [exact S|exact V|rewrite map_length; auto|]. eauto.
  - intros (ts & H & E). apply scan_codes with (s := s) in H; [|reflexivity]. destruct H as (toks & L & ->).
    apply generated_iff in E; [|exact S|exact V|rewrite map_length; auto]. destruct E as (e' & <- & Q & _).
    injection Q as Q. apply tree_inj in Q. now subst.
Qed.
Print Assumptions C42_generated_read.

(** A text with a union, a group, a reference to another file and white space,
    and one that is refused. *)
Example C42_generated_case :
  let toks := [KLparen; KIdent "a"; KPipe; KPrim PNil; KRparen; KArray; KPipe; KIdent "b"; KDot; KIdent "c"] in
  lexes "(a| nil)[] | b . c" toks
  /\ entrypoint the_pick 20 (map tok_code toks)
     = Ok (Node 0 [tree (EUnion (TArray (AGroup (EUnion (TAtom (ARef "a" None)) (TAtom (APrim PNil)) [])))
                           (TAtom (ARef "b" (Some "c"))) []); Leaf eof]) []
  /\ entrypoint the_pick 20 (map tok_code [KIdent "a"; KArray; KArray]) = Bad.
Proof.
  split; [apply lex_iff; reflexivity|]. split; vm_compute; reflexivity.
Qed.
