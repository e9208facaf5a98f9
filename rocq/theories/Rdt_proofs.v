(** Proofs about the lexer and the parser of type expressions. *)
From Coq Require Import List String Ascii Bool Arith Lia.
From Verif Require Import Rdt Spec_Rdt.
Import ListNotations.
Open Scope string_scope.
Open Scope list_scope.
Open Scope nat_scope.

(** * Parser: soundness *)

Section Sound.
Variable rec : list tok -> option (expr * list tok).
Hypothesis Hrec : forall l e r, rec l = Some (e, r) -> l = leaves e ++ r.

Lemma parse_atom_sound l a r : parse_atom rec l = Some (a, r) -> l = leaves_atom a ++ r.
Proof.
  unfold parse_atom. destruct l as [|[] l]; try discriminate.
  - destruct (rec l) as [[e [|[] r']]|] eqn:E; try discriminate. intros H. injection H as <- <-.
    apply Hrec in E. subst. cbn [leaves_atom]. simpl. rewrite <- app_assoc. reflexivity.
  - intros H. injection H as <- <-. reflexivity.
  - destruct l as [|[] [|[] l]]; intros H; injection H as <- <-; reflexivity.
Qed.

Lemma parse_type_sound l t r : parse_type rec l = Some (t, r) -> l = leaves_typ t ++ r.
Proof.
  unfold parse_type. destruct (parse_atom rec l) as [[a r']|] eqn:E; [|discriminate].
  apply parse_atom_sound in E. subst.
  destruct r' as [|[] r']; intros H; injection H as <- <-; cbn [leaves_typ]; rewrite <- ?app_assoc; reflexivity.
Qed.

Lemma parse_members_sound n : forall l ts r, parse_members rec n l = Some (ts, r) ->
  l = flat_map (fun t => KPipe :: leaves_typ t) ts ++ r.
Proof.
  induction n as [|n IH]; intros l ts r H; cbn [parse_members] in H.
  - destruct l as [|[] l]; try discriminate; injection H as <- <-; reflexivity.
  - destruct l as [|k l]; [injection H as <- <-; reflexivity|].
    destruct k; try (injection H as <- <-; reflexivity).
    destruct (parse_type rec l) as [[t r1]|] eqn:E1; [|discriminate].
    destruct (parse_members rec n r1) as [[ts1 r2]|] eqn:E2; [|discriminate].
    injection H as <- <-. apply parse_type_sound in E1. apply IH in E2. subst.
    cbn [flat_map]. simpl. rewrite <- app_assoc. reflexivity.
Qed.
End Sound.

Lemma parse_expr_sound n : forall l e r, parse_expr n l = Some (e, r) -> l = leaves e ++ r.
Proof.
  induction n as [|n IH]; intros l e r H; [discriminate|]. cbn [parse_expr] in H.
  destruct (parse_type (parse_expr n) l) as [[t r1]|] eqn:E1; [|discriminate].
  destruct (parse_members (parse_expr n) n r1) as [[ts r2]|] eqn:E2; [|discriminate].
  apply (parse_type_sound _ IH) in E1. apply (parse_members_sound _ IH) in E2. subst.
  destruct ts as [|t2 ts]; injection H as <- <-; cbn [leaves flat_map]; [reflexivity|].
  simpl. rewrite <- !app_assoc. simpl. rewrite <- app_assoc. reflexivity.
Qed.

(** * Parser: completeness *)

Definition not_head (p : tok -> bool) (r : list tok) : Prop :=
  match r with [] => True | k :: _ => p k = false end.
Definition is_dot k := match k with KDot => true | _ => false end.
Definition is_post k := match k with KDot | KArray | KOpt => true | _ => false end.
Definition is_more k := match k with KDot | KArray | KOpt | KPipe => true | _ => false end.

Lemma leaves_atom_len a : 1 <= List.length (leaves_atom a).
Proof. destruct a as [| |? [|]]; simpl; lia. Qed.
Lemma leaves_typ_len t : 1 <= List.length (leaves_typ t).
Proof. destruct t; cbn [leaves_typ]; rewrite ?app_length; pose proof (leaves_atom_len a); lia. Qed.
Lemma members_len ts : List.length ts <= List.length (flat_map (fun t => KPipe :: leaves_typ t) ts).
Proof. induction ts as [|t ts IH]; simpl; [lia|]. rewrite app_length. lia. Qed.

Section Complete.
Variable rec : list tok -> option (expr * list tok).
Variable bound : nat.
Hypothesis Hrec : forall e r, List.length (leaves e) < bound -> not_head is_more r ->
  rec (leaves e ++ r) = Some (e, r).

Lemma parse_atom_complete a r : List.length (leaves_atom a) <= bound -> not_head is_dot r ->
  parse_atom rec (leaves_atom a ++ r) = Some (a, r).
Proof.
  destruct a as [p|e|s [t|]]; intros L N; cbn [leaves_atom]; simpl.
  - reflexivity.
  - rewrite <- app_assoc. rewrite Hrec; [reflexivity| |reflexivity].
    simpl in L. rewrite app_length in L. simpl in L. lia.
  - reflexivity.
  - destruct r as [|[] r]; try reflexivity. discriminate N.
Qed.

Lemma parse_type_complete t r : List.length (leaves_typ t) <= bound -> not_head is_post r ->
  parse_type rec (leaves_typ t ++ r) = Some (t, r).
Proof.
  intros L N. unfold parse_type. destruct t; cbn [leaves_typ] in *.
  - rewrite parse_atom_complete; [|exact L|]; destruct r as [|[] r]; try reflexivity; discriminate N.
  - rewrite app_length in L. rewrite <- app_assoc, parse_atom_complete; [reflexivity|lia|reflexivity].
  - rewrite app_length in L. rewrite <- app_assoc, parse_atom_complete; [reflexivity|lia|reflexivity].
Qed.

Lemma parse_members_complete ts : forall n r, List.length ts <= n ->
  List.length (flat_map (fun t => KPipe :: leaves_typ t) ts) <= bound -> not_head is_more r ->
  parse_members rec n (flat_map (fun t => KPipe :: leaves_typ t) ts ++ r) = Some (ts, r).
Proof.
  induction ts as [|t ts IH]; intros n r L B N.
  - cbn [flat_map]. simpl. destruct n, r as [|[] r]; try reflexivity; discriminate N.
  - simpl in L. destruct n as [|n]; [lia|]. cbn [flat_map] in *. simpl in B. rewrite app_length in B.
    simpl. rewrite <- app_assoc. rewrite parse_type_complete; [|lia|].
    + rewrite IH; [reflexivity|lia|lia|exact N].
    + destruct ts; cbn [flat_map]; simpl; [|reflexivity].
      destruct r as [|[] r]; try exact I; try reflexivity; discriminate N.
Qed.
End Complete.

Lemma parse_expr_complete n : forall e r, List.length (leaves e) < n -> not_head is_more r ->
  parse_expr n (leaves e ++ r) = Some (e, r).
Proof.
  induction n as [|n IH]; intros e r L N; [lia|]. cbn [parse_expr].
  destruct e as [t|t1 t2 ts]; cbn [leaves] in *.
  - rewrite (parse_type_complete _ n IH); [|lia|destruct r as [|[] r]; try exact I; try reflexivity; discriminate N].
    pose proof (parse_members_complete _ n IH [] n r (Nat.le_0_l _) (Nat.le_0_l _) N) as Q.
    cbn [flat_map] in Q. simpl in Q. now rewrite Q.
  - rewrite app_length in L. cbn [List.length] in L. rewrite app_length in L.
    pose proof (leaves_typ_len t1).
    rewrite <- app_assoc. rewrite (parse_type_complete _ n IH); [|lia|reflexivity].
    pose proof (members_len ts).
    change (KPipe :: leaves_typ t2 ++ flat_map (fun t => KPipe :: leaves_typ t) ts)
      with (flat_map (fun t => KPipe :: leaves_typ t) (t2 :: ts)).
    rewrite (parse_members_complete _ n IH (t2 :: ts) n r); [reflexivity|simpl; lia|simpl; rewrite app_length; lia|exact N].
Qed.

Lemma parse_iff l e : parse l = Some e <-> leaves e = l.
Proof.
  unfold parse. split.
  - destruct (parse_expr (S (List.length l)) l) as [[e' [|k r]]|] eqn:E; try discriminate.
    intros H. injection H as ->. apply parse_expr_sound in E. now rewrite app_nil_r in E.
  - intros <-. pose proof (parse_expr_complete (S (List.length (leaves e))) e [] (Nat.lt_succ_diag_r _) I) as H.
    rewrite app_nil_r in H. now rewrite H.
Qed.

Lemma leaves_inj e e' : leaves e = leaves e' -> e = e'.
Proof. intros H. assert (parse (leaves e) = Some e) by now apply parse_iff. assert (parse (leaves e) = Some e') by now apply parse_iff. congruence. Qed.

(** * Lexer *)

Lemma id_char_iff c : id_char c = true <-> identifier_char c.
Proof.
  unfold id_char, identifier_char. rewrite !orb_true_iff, !andb_true_iff, !Nat.leb_le, !Ascii.eqb_eq. tauto.
Qed.

Lemma sapp_assoc (a b c : string) : ((a ++ b) ++ c)%string = (a ++ (b ++ c))%string.
Proof. induction a; simpl; congruence. Qed.
Lemma sapp_nil (a : string) : (a ++ "")%string = a.
Proof. induction a; simpl; congruence. Qed.
Lemma all_chars_app P a b : all_chars P (a ++ b) <-> all_chars P a /\ all_chars P b.
Proof. induction a; simpl; tauto. Qed.
Lemma slen_app (a b : string) : String.length (a ++ b) = String.length a + String.length b.
Proof. induction a; simpl; auto. Qed.

(** A text of only identifier characters. *)
Lemma prim_chars p : all_chars identifier_char (prim_text p) /\ prim_text p <> "".
Proof. split; [|destruct p; discriminate]. destruct p; simpl; repeat split; apply id_char_iff; reflexivity. Qed.

Lemma prim_text_inj p q : prim_text p = prim_text q -> p = q.
Proof. destruct p, q; intros H; try reflexivity; discriminate H. Qed.

Lemma rule_prim p : rule (KPrim p) (prim_text p).
Proof. destruct p; constructor. Qed.

(** The rules, summed up. *)
Lemma rule_cases k t : rule k t ->
  (k = KLparen /\ t = "(") \/ (k = KRparen /\ t = ")") \/ (k = KPipe /\ t = "|") \/ (k = KArray /\ t = "[]")
  \/ (k = KOpt /\ t = "?") \/ (k = KDot /\ t = ".") \/ (exists p, k = KPrim p /\ t = prim_text p)
  \/ (k = KIdent t /\ t <> "" /\ all_chars identifier_char t).
Proof.
  intros H. destruct H; try tauto;
    try (do 6 right; left; match goal with |- exists p, KPrim ?q = _ /\ _ => exists q; split; reflexivity end).
Qed.

Definition first_not_id (s : string) : Prop :=
  match s with EmptyString => True | String c _ => ~ identifier_char c end.

(** Words: a maximal run of identifier characters. *)
Lemma common_prefix w s : all_chars identifier_char w -> first_not_id s ->
  forall w' s', all_chars identifier_char w' -> (w ++ s)%string = (w' ++ s')%string -> String.length w' <= String.length w.
Proof.
  intros A F. induction w as [|c w IH]; intros w' s' A' E; simpl in *.
  - subst s. destruct w'; simpl in *; [lia|]. tauto.
  - destruct w' as [|c' w']; simpl in *; [lia|]. injection E as -> E. specialize (IH (proj2 A) w' s' (proj2 A') E). lia.
Qed.

Lemma id_not c : identifier_char c -> c <> "("%char /\ c <> ")"%char /\ c <> "|"%char /\ c <> "["%char /\ c <> "?"%char
  /\ c <> " "%char /\ c <> "009"%char.
Proof. intros H. apply id_char_iff in H. repeat split; intros ->; discriminate H. Qed.

Lemma word_ok w : w <> "" -> all_chars identifier_char w ->
  rule (word w) w /\ (forall k', rule k' w -> ~ earlier k' (word w))
  /\ (forall k', rule k' w -> (forall k'', rule k'' w -> ~ earlier k'' k') -> k' = word w).
Proof.
  intros N A. unfold word. destruct (String.eqb_spec w ".") as [->|D].
  { split; [constructor|]. split; [intros k' _; destruct k'; simpl; auto|].
    intros k' R L. apply rule_cases in R.
    destruct R as [[_ E]|[[_ E]|[[_ E]|[[_ E]|[[_ E]|[[-> E]|[(p & _ & E)|[-> _]]]]]]]]; try discriminate; auto.
    - destruct p; discriminate.
    - exfalso. apply (L KDot); [constructor|exact I]. }
  destruct (find (fun p => String.eqb w (prim_text p)) prims) as [p|] eqn:F.
  - apply find_some in F. destruct F as [_ F]. apply String.eqb_eq in F. subst w.
    split; [apply rule_prim|]. split; [intros k' _; destruct k'; simpl; auto|].
    intros k' R L. apply rule_cases in R.
    destruct R as [[_ E]|[[_ E]|[[_ E]|[[_ E]|[[_ E]|[[_ E]|[(q & -> & E)|[-> _]]]]]]]];
      try (destruct p; discriminate).
    + apply prim_text_inj in E. now subst.
    + exfalso. apply (L (KPrim p)); [apply rule_prim|exact I].
  - assert (NP : forall p, w <> prim_text p).
    { intros p E. pose proof (find_none _ _ F p) as K.
      assert (I : In p prims) by (destruct p; simpl; tauto). specialize (K I). apply String.eqb_neq in K. auto. }
    split; [constructor; auto|]. split.
    + intros k' R. apply rule_cases in R.
      destruct R as [[_ E]|[[_ E]|[[_ E]|[[_ E]|[[_ E]|[[_ E]|[(q & -> & E)|[-> _]]]]]]]];
        try (subst w; simpl in A; exfalso; destruct A as [A _]; apply id_not in A; tauto).
      * exfalso. eapply NP; eauto.
      * simpl. auto.
    + intros k' R _. apply rule_cases in R.
      destruct R as [[_ E]|[[_ E]|[[_ E]|[[_ E]|[[_ E]|[[_ E]|[(q & -> & E)|[-> _]]]]]]]];
        try (subst w; simpl in A; exfalso; destruct A as [A _]; apply id_not in A; tauto).
      * exfalso. eapply NP; eauto.
      * reflexivity.
Qed.

(** What a rule can match at the start of a text. *)
Lemma rule_id_start k t : rule k t -> forall c r (s : string), t = String c r -> identifier_char c -> all_chars identifier_char t.
Proof.
  intros R c r s E C. apply rule_cases in R.
  destruct R as [[_ X]|[[_ X]|[[_ X]|[[_ X]|[[_ X]|[[_ X]|[(q & _ & X)|(_ & _ & X)]]]]]]]; subst t; try assumption;
    try (injection E as <- <-; apply id_not in C; tauto).
  - simpl. split; auto. apply id_char_iff. reflexivity.
  - apply prim_chars.
Qed.

Lemma rule_nonempty k t : rule k t -> t <> "".
Proof.
  intros R. apply rule_cases in R.
  destruct R as [[_ X]|[[_ X]|[[_ X]|[[_ X]|[[_ X]|[[_ X]|[(q & _ & X)|(_ & N & X)]]]]]]]; subst; try discriminate; auto.
  destruct q; discriminate.
Qed.

(** A punctuation token. *)
Lemma rule_punct k t c r : rule k t -> t = String c r -> ~ identifier_char c ->
  (k = KLparen /\ t = "(") \/ (k = KRparen /\ t = ")") \/ (k = KPipe /\ t = "|") \/ (k = KArray /\ t = "[]")
  \/ (k = KOpt /\ t = "?").
Proof.
  intros R E C. apply rule_cases in R.
  destruct R as [H|[H|[H|[H|[H|[[_ X]|[(q & _ & X)|(_ & N & X)]]]]]]]; try tauto; exfalso.
  - rewrite X in E. injection E as <- _. apply C, id_char_iff. reflexivity.
  - destruct (prim_chars q) as [A _]. rewrite <- X, E in A. apply C, A.
  - rewrite E in X. apply C, X.
Qed.

Lemma lx_word w s l : w <> "" -> all_chars identifier_char w -> first_not_id s -> lexes s l ->
  lexes (w ++ s) (word w :: l).
Proof.
  intros N A F L. destruct (word_ok w N A) as (R & P & _).
  apply lx_tok; auto. intros k' t' s' R' E.
  destruct w as [|c w]; [congruence|]. destruct t' as [|c' t']; [simpl; lia|].
  eapply common_prefix; [exact A|exact F| |exact E].
  simpl in E. injection E as <- _. exact (rule_id_start _ _ R' c t' "" eq_refl (proj1 A)).
Qed.

Lemma lx_flush w s l : all_chars identifier_char w -> first_not_id s -> lexes s l -> lexes (w ++ s) (flush w l).
Proof.
  intros A F L. unfold flush. destruct (String.eqb_spec w "") as [->|N]; [exact L|now apply lx_word].
Qed.

Lemma lx_punct1 k c s l : rule k (String c "") -> ~ identifier_char c -> c <> "["%char -> lexes s l ->
  lexes (String c s) (k :: l).
Proof.
  intros R C B L. change (String c s) with (String c "" ++ s)%string. apply lx_tok; auto.
  - intros k' t' s' R' E. simpl in E. destruct t' as [|c' t']; [simpl; lia|]. simpl in E. injection E as <- E.
    destruct (rule_punct _ _ _ _ R' eq_refl C) as [[_ X]|[[_ X]|[[_ X]|[[_ X]|[_ X]]]]];
      injection X as -> ->; simpl; try lia. congruence.
  - intros k' R' EL. pose proof (rule_punct _ _ _ _ R eq_refl C) as Q.
    destruct k' ; try exact EL; destruct Q as [[-> _]|[[-> _]|[[-> _]|[[-> _]|[-> _]]]]]; exact EL.
Qed.

Lemma lx_array s l : lexes s l -> lexes (String "[" (String "]" s)) (KArray :: l).
Proof.
  intros L. change (String "[" (String "]" s)) with ("[]" ++ s)%string. apply lx_tok; auto; [constructor| |].
  - intros k' t' s' R' E. destruct t' as [|c' t']; [simpl; lia|]. simpl in E. injection E as <- E.
    assert (C : ~ identifier_char "["%char) by (intros Q; apply id_char_iff in Q; discriminate Q).
    destruct (rule_punct _ _ _ _ R' eq_refl C) as [[_ X]|[[_ X]|[[_ X]|[[_ X]|[_ X]]]]]; try discriminate X.
    injection X as ->. simpl. lia.
  - intros k' _ Q. destruct k'; exact Q.
Qed.

Lemma not_id c : id_char c = false -> ~ identifier_char c.
Proof. intros H Q. apply id_char_iff in Q. congruence. Qed.

Lemma lex_from_sound s : forall w l, all_chars identifier_char w -> lex_from w s = Some l -> lexes (w ++ s) l.
Proof.
  (* strong induction, because of the two-character token *)
  remember (String.length s) as m eqn:Em. assert (Hm : String.length s <= m) by lia. clear Em. revert s Hm.
  induction m as [|m IH]; intros s Hm w l A H.
  { destruct s; simpl in Hm; [|lia]. simpl in H. injection H as <-. apply lx_flush; auto; [exact I|constructor]. }
  destruct s as [|c s]; simpl in H; [injection H as <-; apply lx_flush; auto; [exact I|constructor]|].
  simpl in Hm.
  destruct (id_char c) eqn:C.
  { apply id_char_iff in C. apply IH in H; [|lia|].
    - rewrite sapp_assoc in H. exact H.
    - apply all_chars_app. simpl. auto. }
  apply not_id in C.
  assert (K : forall l', lex_from "" s = Some l' -> lexes s l').
  { intros l' E. apply (IH s ltac:(lia) "" l'); simpl; auto. }
  destruct (ws_char c) eqn:W.
  { unfold ws_char in W. apply orb_true_iff in W. rewrite !Ascii.eqb_eq in W.
    destruct (lex_from "" s) as [l'|] eqn:E; [|discriminate]. injection H as <-. specialize (K _ eq_refl).
    apply lx_flush; [exact A|exact C|]. destruct W as [->| ->]; now constructor. }
  destruct (Ascii.eqb_spec c "(") as [->|N1].
  { destruct (lex_from "" s) as [l'|] eqn:E; [|discriminate]. injection H as <-. specialize (K _ eq_refl).
    apply lx_flush; [exact A|exact C|]. apply lx_punct1; auto; [constructor|discriminate]. }
  destruct (Ascii.eqb_spec c ")") as [->|N2].
  { destruct (lex_from "" s) as [l'|] eqn:E; [|discriminate]. injection H as <-. specialize (K _ eq_refl).
    apply lx_flush; [exact A|exact C|]. apply lx_punct1; auto; [constructor|discriminate]. }
  destruct (Ascii.eqb_spec c "|") as [->|N3].
  { destruct (lex_from "" s) as [l'|] eqn:E; [|discriminate]. injection H as <-. specialize (K _ eq_refl).
    apply lx_flush; [exact A|exact C|]. apply lx_punct1; auto; [constructor|discriminate]. }
  destruct (Ascii.eqb_spec c "?") as [->|N4].
  { destruct (lex_from "" s) as [l'|] eqn:E; [|discriminate]. injection H as <-. specialize (K _ eq_refl).
    apply lx_flush; [exact A|exact C|]. apply lx_punct1; auto; [constructor|discriminate]. }
  destruct (Ascii.eqb_spec c "[") as [->|N5]; [|discriminate].
  destruct s as [|d s]; [discriminate|]. destruct (Ascii.eqb_spec d "]") as [->|N6]; [|discriminate].
  destruct (lex_from "" s) as [l'|] eqn:E; [|discriminate]. injection H as <-.
  apply lx_flush; [exact A|exact C|]. apply lx_array.
  simpl in Hm. apply (IH s ltac:(lia) "" l'); simpl; auto.
Qed.

(** Reading on through a word. *)
Lemma lex_from_word w : forall v s, all_chars identifier_char w -> lex_from v (w ++ s) = lex_from (v ++ w) s.
Proof.
  induction w as [|c w IH]; intros v s A; simpl; [now rewrite sapp_nil|].
  destruct A as [C A]. apply id_char_iff in C. rewrite C. rewrite IH by auto. rewrite sapp_assoc. reflexivity.
Qed.

Lemma lex_from_flush w s l : first_not_id s -> lex_from "" s = Some l -> lex_from w s = Some (flush w l).
Proof.
  intros F H. destruct s as [|c s]; simpl in *; [injection H as <-; reflexivity|].
  destruct (id_char c) eqn:C; [apply id_char_iff in C; contradiction|].
  assert (Fl : forall x, flush "" x = x) by reflexivity.
  destruct (ws_char c).
  { destruct (lex_from "" s); [|discriminate]. simpl in *. rewrite Fl in H. now injection H as ->. }
  destruct (Ascii.eqb c "("). { destruct (lex_from "" s); [|discriminate]. simpl in *. rewrite Fl in H. now injection H as <-. }
  destruct (Ascii.eqb c ")"). { destruct (lex_from "" s); [|discriminate]. simpl in *. rewrite Fl in H. now injection H as <-. }
  destruct (Ascii.eqb c "|"). { destruct (lex_from "" s); [|discriminate]. simpl in *. rewrite Fl in H. now injection H as <-. }
  destruct (Ascii.eqb c "?"). { destruct (lex_from "" s); [|discriminate]. simpl in *. rewrite Fl in H. now injection H as <-. }
  destruct (Ascii.eqb c "["); [|discriminate]. destruct s as [|d s]; [discriminate|].
  destruct (Ascii.eqb d "]"); [|discriminate]. destruct (lex_from "" s); [|discriminate]. simpl in *. rewrite Fl in H. now injection H as <-.
Qed.

(** The longest word is taken whole. *)
Lemma longest_stops t s : t <> "" -> all_chars identifier_char t ->
  (forall k' t' s', rule k' t' -> (t ++ s)%string = (t' ++ s')%string -> String.length t' <= String.length t) ->
  first_not_id s.
Proof.
  intros N A L. destruct s as [|c s]; [exact I|]. simpl. intros C.
  specialize (L (KIdent (t ++ String c "")) (t ++ String c "")%string s).
  assert (Q : String.length (t ++ String c "") <= String.length t).
  { apply L; [constructor|].
    - destruct t; discriminate.
    - apply all_chars_app. simpl. auto.
    - rewrite sapp_assoc. reflexivity. }
  rewrite slen_app in Q. simpl in Q. lia.
Qed.

Lemma lex_complete s l : lexes s l -> lex_from "" s = Some l.
Proof.
  induction 1 as [|s l _ IH|s l _ IH|k t s l R L P _ IH].
  - reflexivity.
  - simpl. rewrite IH. reflexivity.
  - simpl. rewrite IH. reflexivity.
  - destruct t as [|c r] eqn:Et; [exfalso; eapply rule_nonempty; eauto|]. rewrite <- Et in *.
    destruct (id_char c) eqn:C.
    + apply id_char_iff in C. assert (A : all_chars identifier_char t) by (eapply rule_id_start; eauto; subst; eauto).
      assert (N : t <> "") by (subst; discriminate).
      pose proof (longest_stops t s N A L) as F.
      rewrite lex_from_word by exact A. simpl. rewrite (lex_from_flush _ _ _ F IH).
      unfold flush. destruct (String.eqb_spec t ""); [contradiction|].
      destruct (word_ok t N A) as (_ & _ & U). rewrite <- (U k R P). reflexivity.
    + apply not_id in C. destruct (rule_punct _ _ _ _ R Et C) as [[-> ->]|[[-> ->]|[[-> ->]|[[-> ->]|[-> ->]]]]];
        simpl; rewrite IH; reflexivity.
Qed.

Lemma lex_iff s l : lex s = Some l <-> lexes s l.
Proof. split; [apply (lex_from_sound s "" l I)|apply lex_complete]. Qed.

Lemma lexes_fun s l l' : lexes s l -> lexes s l' -> l = l'.
Proof. intros A B. apply lex_iff in A, B. congruence. Qed.

(** * Reading *)

Lemma read_iff s e : read_type s = Some e <-> lexes s (leaves e).
Proof.
  unfold read_type. split.
  - destruct (lex s) as [l|] eqn:E; [|discriminate]. intros H. apply parse_iff in H. subst. now apply lex_iff.
  - intros H. apply lex_iff in H. rewrite H. now apply parse_iff.
Qed.

Lemma word_name s : name_ok s -> word s = KIdent s.
Proof.
  intros (N & A & D & P). unfold word. destruct (String.eqb_spec s "."); [contradiction|].
  destruct (find (fun p => String.eqb s (prim_text p)) prims) as [p|] eqn:F; [|reflexivity].
  apply find_some in F. destruct F as [_ F]. apply String.eqb_eq in F. exfalso. eapply P; eauto.
Qed.

Lemma word_prim p : word (prim_text p) = KPrim p.
Proof. destruct p; reflexivity. Qed.

Lemma lexes_print l : Forall tok_ok l -> lexes (print l) l.
Proof.
  induction 1 as [|k l K _ IH]; [constructor|]. cbn [print].
  assert (F : first_not_id (String " " (print l))) by (simpl; intros Q; apply id_char_iff in Q; discriminate Q).
  assert (S1 : lexes (String " " (print l)) l) by now constructor.
  destruct k as [| | | | | |p|s]; cbn [tok_text].
  - apply (lx_punct1 KLparen "("); auto; [constructor|apply not_id; reflexivity|discriminate].
  - apply (lx_punct1 KRparen ")"); auto; [constructor|apply not_id; reflexivity|discriminate].
  - apply (lx_punct1 KPipe "|"); auto; [constructor|apply not_id; reflexivity|discriminate].
  - apply lx_array, S1.
  - apply (lx_punct1 KOpt "?"); auto; [constructor|apply not_id; reflexivity|discriminate].
  - change KDot with (word "."). apply lx_word; auto; [discriminate|].
    simpl. split; auto. apply id_char_iff. reflexivity.
  - rewrite <- word_prim. destruct (prim_chars p) as [A N]. now apply lx_word.
  - simpl in K. rewrite <- (word_name s K). destruct K as (N & A & _). now apply lx_word.
Qed.

Lemma read_print e : Forall tok_ok (leaves e) -> read_type (print (leaves e)) = Some e.
Proof. intros H. apply read_iff, lexes_print, H. Qed.

(** The names in what has been read are identifiers. *)
Lemma lexes_ok s l : lexes s l -> Forall tok_ok l.
Proof.
  induction 1 as [| | |k t s l R L P _ IH]; auto. constructor; auto.
  destruct k as [| | | | | |p|w]; simpl; auto.
  apply rule_cases in R.
  destruct R as [[R _]|[[R _]|[[R _]|[[R _]|[[R _]|[[R _]|[(q & R & _)|(R & N & A)]]]]]]]; try discriminate.
  injection R as ->. split; [auto|]. split; [auto|]. split.
  - intros ->. apply (P KDot); [constructor|exact I].
  - intros p ->. apply (P (KPrim p)); [apply rule_prim|exact I].
Qed.

Lemma read_reprint s e : read_type s = Some e -> read_type (print (leaves e)) = Some e.
Proof. intros H. apply read_print. eapply lexes_ok. apply read_iff. exact H. Qed.
