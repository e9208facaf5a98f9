(** Proofs about Names.v. *)
From Coq Require Import ZArith List String Bool Ascii Lia.
From Verif Require Import Base Names Spec_Names.
Import ListNotations.
Open Scope string_scope.
Open Scope list_scope.
Open Scope nat_scope.

(** * identifyShapeType *)

Record flags := Fl { fs : bool; fp : bool; fn : bool; fa : bool; fo : bool; ff : bool }.

Definition mem (l : list string) (n : string) : bool := existsb (String.eqb n) l.

Definition flags_of (names : list string) : flags :=
  Fl (existsb (mem length_facets) names) (existsb (mem ["pattern"]) names)
     (existsb (mem number_facets) names) (existsb (mem array_facets) names)
     (existsb (mem object_facets) names) (existsb (mem ["fileTypes"]) names).

Definition enc (f : flags) : option (string * bool) :=
  match f with
  | Fl false false false false false false => Some ("", false)
  | Fl _ p false false false false => Some ("string", p)
  | Fl _ false false false false true => Some ("file", false)
  | Fl false false true false false false => Some ("number", false)
  | Fl false false false true false false => Some ("array", false)
  | Fl false false false false true false => Some ("object", false)
  | _ => None
  end.

Definition orf (a b : flags) : flags :=
  Fl (fs a || fs b) (fp a || fp b) (fn a || fn b) (fa a || fa b) (fo a || fo b) (ff a || ff b).

Lemma flags_cons n names : flags_of (n :: names) = orf (flags_of [n]) (flags_of names).
Proof. unfold flags_of, orf. simpl. rewrite !orb_false_r. reflexivity. Qed.

Lemma mem_In l n : mem l n = true <-> In n l.
Proof.
  unfold mem. rewrite existsb_exists. split.
  - intros (x & Hx & E). apply String.eqb_eq in E. now subst.
  - intros H. exists n. split; [assumption|apply String.eqb_refl].
Qed.

Lemma facet_type_flags n :
  match facet_type n with
  | None => flags_of [n] = Fl false false false false false false
  | Some (t, p) =>
      (t, p, flags_of [n]) = ("string", false, Fl true false false false false false)
      \/ (t, p, flags_of [n]) = ("string", true, Fl false true false false false false)
      \/ (t, p, flags_of [n]) = ("number", false, Fl false false true false false false)
      \/ (t, p, flags_of [n]) = ("array", false, Fl false false false true false false)
      \/ (t, p, flags_of [n]) = ("object", false, Fl false false false false true false)
      \/ (t, p, flags_of [n]) = ("file", false, Fl false false false false false true)
  end.
Proof.
  unfold facet_type.
  destruct (existsb (String.eqb n) ["minLength"; "maxLength"]) eqn:E1.
  { change (mem length_facets n = true) in E1. apply mem_In in E1. simpl in E1.
    destruct E1 as [<-|[<-|[]]]; left; reflexivity. }
  destruct (n =? "pattern")%string eqn:E2.
  { apply String.eqb_eq in E2. subst. right; left; reflexivity. }
  destruct (existsb (String.eqb n) ["minimum"; "maximum"; "multipleOf"]) eqn:E3.
  { change (mem number_facets n = true) in E3. apply mem_In in E3. simpl in E3.
    destruct E3 as [<-|[<-|[<-|[]]]]; do 2 right; left; reflexivity. }
  destruct (existsb (String.eqb n) ["minItems"; "maxItems"; "uniqueItems"; "items"]) eqn:E4.
  { change (mem array_facets n = true) in E4. apply mem_In in E4. simpl in E4.
    destruct E4 as [<-|[<-|[<-|[<-|[]]]]]; do 3 right; left; reflexivity. }
  destruct (existsb (String.eqb n)
    ["minProperties"; "maxProperties"; "additionalProperties"; "properties"; "discriminator"]) eqn:E5.
  { change (mem object_facets n = true) in E5. apply mem_In in E5. simpl in E5.
    destruct E5 as [<-|[<-|[<-|[<-|[<-|[]]]]]]; do 4 right; left; reflexivity. }
  destruct (n =? "fileTypes")%string eqn:E6.
  { apply String.eqb_eq in E6. subst. do 5 right; reflexivity. }
  unfold flags_of, mem, length_facets, number_facets, array_facets, object_facets.
  cbn [existsb] in *. rewrite E1, E2, E3, E4, E5, E6. reflexivity.
Qed.

Lemma identify_loop_enc names : forall seen t so,
  enc seen = Some (t, so) ->
  identify_loop t so names =
    match enc (orf (flags_of names) seen) with Some (t', _) => Ok t' | None => Err end.
Proof.
  induction names as [|n names IH]; intros seen t so E.
  - assert (Eo : orf (flags_of []) seen = seen) by (destruct seen; reflexivity). rewrite Eo, E. reflexivity.
  - rewrite flags_cons. pose proof (facet_type_flags n) as F. cbn [identify_loop].
    remember (flags_of [n]) as fl eqn:Efl. clear Efl.
    destruct (facet_type n) as [[ft p]|].
    + assert (Abs : forall a b, enc b = None -> enc (orf a b) = None)
        by (intros [[] [] [] [] [] []] [[] [] [] [] [] []]; simpl; congruence).
      assert (As : orf (orf fl (flags_of names)) seen = orf (flags_of names) (orf fl seen)).
      { destruct fl as [[] [] [] [] [] []], (flags_of names) as [[] [] [] [] [] []], seen; reflexivity. }
      rewrite As.
      destruct (enc (orf fl seen)) as [[t2 s2]|] eqn:E2.
      * rewrite <- (IH _ t2 s2 E2). clear IH As Abs.
        destruct seen as [[] [] [] [] [] []]; simpl in E; try discriminate E; injection E as <- <-;
          destruct F as [F|[F|[F|[F|[F|F]]]]]; injection F as -> -> ->; simpl in E2;
          try discriminate E2; injection E2 as <- <-; reflexivity.
      * rewrite (Abs _ _ E2). clear IH As Abs.
        destruct seen as [[] [] [] [] [] []]; simpl in E; try discriminate E; injection E as <- <-;
          destruct F as [F|[F|[F|[F|[F|F]]]]]; injection F as -> -> ->; simpl in E2;
          try discriminate E2; reflexivity.
    + subst fl. rewrite (IH seen t so E). reflexivity.
Qed.

Lemma identify_enc names :
  identify_type names =
    match enc (flags_of names) with
    | Some (t, _) => Ok (if String.eqb t "" then "string" else t)
    | None => Err
    end.
Proof.
  unfold identify_type. rewrite (identify_loop_enc names (Fl false false false false false false) "" false eq_refl).
  assert (E : orf (flags_of names) (Fl false false false false false false) = flags_of names).
  { destruct (flags_of names) as [[] [] [] [] [] []]; reflexivity. }
  rewrite E. destruct (enc (flags_of names)) as [[t so]|]; reflexivity.
Qed.

Lemma has_some names l : existsb (mem l) names = true <-> uses_some names l.
Proof.
  rewrite existsb_exists. split; intros (n & A & B); exists n; (split; [assumption|]); now apply mem_In.
Qed.

Lemma has_none names l : existsb (mem l) names = false <-> (forall n, In n names -> In n l -> False).
Proof.
  split.
  - intros E n A B. assert (existsb (mem l) names = true) by (apply has_some; exists n; tauto). congruence.
  - intros H. destruct (existsb (mem l) names) eqn:E; [|reflexivity].
    apply has_some in E. destruct E as (n & A & B). exfalso. eauto.
Qed.

Lemma typed_split n : In n typed_facets <->
  In n length_facets \/ In n ["pattern"] \/ In n number_facets \/ In n array_facets \/ In n object_facets
  \/ In n ["fileTypes"].
Proof. simpl. tauto. Qed.

Lemma some_one names x : uses_some names [x] <-> In x names.
Proof.
  split.
  - intros (n & A & [<-|[]]). assumption.
  - intros H. exists x. split; [assumption|now left].
Qed.

Lemma inferred_enc names t :
  inferred names t <->
    exists t' so, enc (flags_of names) = Some (t', so) /\ t = if String.eqb t' "" then "string" else t'.
Proof.
  remember (flags_of names) as F eqn:EF.
  unfold flags_of in EF.
  assert (Only : forall l, uses_only names l <->
     (forall n, In n names -> In n length_facets -> In n l)
     /\ (forall n, In n names -> In n ["pattern"] -> In n l)
     /\ (forall n, In n names -> In n number_facets -> In n l)
     /\ (forall n, In n names -> In n array_facets -> In n l)
     /\ (forall n, In n names -> In n object_facets -> In n l)
     /\ (forall n, In n names -> In n ["fileTypes"] -> In n l)).
  { intros l. unfold uses_only. setoid_rewrite typed_split. firstorder. }
  assert (Cl : forall g l, (forall n, In n g -> In n l -> False) ->
     ((forall n, In n names -> In n g -> In n l) <-> existsb (mem g) names = false)).
  { intros g l D. rewrite has_none. split; [|firstorder].
    intros H n A B. eapply D; eauto. }
  assert (Sub : forall g l, incl g l -> ((forall n, In n names -> In n g -> In n l) <-> True)).
  { intros g l I. split; auto. }
  assert (Os : uses_only names string_facets <->
     existsb (mem number_facets) names = false /\ existsb (mem array_facets) names = false
     /\ existsb (mem object_facets) names = false /\ existsb (mem ["fileTypes"]) names = false).
  { rewrite Only, (Sub length_facets), (Sub ["pattern"]), (Cl number_facets), (Cl array_facets),
      (Cl object_facets), (Cl ["fileTypes"]); [tauto|..];
      try (intros n; simpl; intros; repeat (match goal with H : _ \/ _ |- _ => destruct H end); subst; try contradiction; discriminate);
      intros n; simpl; tauto. }
  assert (Of : uses_only names file_facets <->
     existsb (mem number_facets) names = false /\ existsb (mem array_facets) names = false
     /\ existsb (mem object_facets) names = false /\ existsb (mem ["pattern"]) names = false).
  { rewrite Only, (Sub length_facets), (Sub ["fileTypes"]), (Cl number_facets), (Cl array_facets),
      (Cl object_facets), (Cl ["pattern"]); [tauto|..];
      try (intros n; simpl; intros; repeat (match goal with H : _ \/ _ |- _ => destruct H end); subst; try contradiction; discriminate);
      intros n; simpl; tauto. }
  assert (On : uses_only names number_facets <->
     existsb (mem length_facets) names = false /\ existsb (mem array_facets) names = false
     /\ existsb (mem object_facets) names = false /\ existsb (mem ["pattern"]) names = false
     /\ existsb (mem ["fileTypes"]) names = false).
  { rewrite Only, (Sub number_facets), (Cl ["fileTypes"]), (Cl length_facets), (Cl array_facets),
      (Cl object_facets), (Cl ["pattern"]); [tauto|..];
      try (intros n; simpl; intros; repeat (match goal with H : _ \/ _ |- _ => destruct H end); subst; try contradiction; discriminate);
      intros n; simpl; tauto. }
  assert (Oa : uses_only names array_facets <->
     existsb (mem length_facets) names = false /\ existsb (mem number_facets) names = false
     /\ existsb (mem object_facets) names = false /\ existsb (mem ["pattern"]) names = false
     /\ existsb (mem ["fileTypes"]) names = false).
  { rewrite Only, (Sub array_facets), (Cl ["fileTypes"]), (Cl length_facets), (Cl number_facets),
      (Cl object_facets), (Cl ["pattern"]); [tauto|..];
      try (intros n; simpl; intros; repeat (match goal with H : _ \/ _ |- _ => destruct H end); subst; try contradiction; discriminate);
      intros n; simpl; tauto. }
  assert (Oo : uses_only names object_facets <->
     existsb (mem length_facets) names = false /\ existsb (mem number_facets) names = false
     /\ existsb (mem array_facets) names = false /\ existsb (mem ["pattern"]) names = false
     /\ existsb (mem ["fileTypes"]) names = false).
  { rewrite Only, (Sub object_facets), (Cl ["fileTypes"]), (Cl length_facets), (Cl number_facets),
      (Cl array_facets), (Cl ["pattern"]); [tauto|..];
      try (intros n; simpl; intros; repeat (match goal with H : _ \/ _ |- _ => destruct H end); subst; try contradiction; discriminate);
      intros n; simpl; tauto. }
  unfold inferred. rewrite <- (some_one names "fileTypes"), <- !has_some, Os, Of, On, Oa, Oo.
  rewrite EF. clear.
  destruct (existsb (mem length_facets) names), (existsb (mem ["pattern"]) names),
    (existsb (mem number_facets) names), (existsb (mem array_facets) names),
    (existsb (mem object_facets) names), (existsb (mem ["fileTypes"]) names); simpl;
  cbn [enc]; split; intros H;
  try (decompose [and or] H; clear H; subst; try discriminate; eexists; eexists; split; reflexivity);
  try (destruct H as (t' & so & E & Ht); try discriminate; injection E as <- <-; simpl in Ht; subst; tauto).
Qed.

Theorem identify_iff names t : identify_type names = Ok t <-> inferred names t.
Proof.
  rewrite inferred_enc, identify_enc. destruct (enc (flags_of names)) as [[t' so]|]; split.
  - intros E. injection E as <-. eauto.
  - intros (a & b & E & ->). injection E as <- <-. reflexivity.
  - discriminate.
  - intros (a & b & E & _). discriminate.
Qed.

Theorem identify_err names : identify_type names = Err <-> ~ exists t, inferred names t.
Proof.
  setoid_rewrite inferred_enc. rewrite identify_enc.
  destruct (enc (flags_of names)) as [[t' so]|]; split; try discriminate; try tauto.
  - intros H. exfalso. apply H. eauto 7.
  - intros _ (t & a & b & E & _). discriminate.
Qed.

Theorem identify_order names names' :
  (forall n, In n names <-> In n names') -> identify_type names = identify_type names'.
Proof.
  intros H. assert (E : flags_of names = flags_of names').
  { assert (forall l, existsb (mem l) names = existsb (mem l) names').
    { intros l. apply eq_true_iff_eq. rewrite !has_some. unfold uses_some. firstorder. }
    unfold flags_of. now rewrite !H0. }
  now rewrite !identify_enc, E.
Qed.

(** * Strings *)
Lemma app_cons c s t : (String c s ++ t)%string = String c (s ++ t). Proof. reflexivity. Qed.

Lemma sapp_assoc a b c : ((a ++ b) ++ c)%string = (a ++ b ++ c)%string.
Proof. induction a; simpl; congruence. Qed.

Lemma sapp_nil a : (a ++ "")%string = a.
Proof. induction a; simpl; congruence. Qed.

Lemma slen_app a b : String.length (a ++ b)%string = String.length a + String.length b.
Proof. induction a; simpl; congruence. Qed.

Lemma sub_all s : String.substring 0 (String.length s) s = s.
Proof. induction s; simpl; congruence. Qed.

Lemma sub_app0 a b : String.substring 0 (String.length a) (a ++ b)%string = a.
Proof. induction a; simpl; [now destruct b|congruence]. Qed.

Lemma sub_app a b n : String.substring (String.length a) n (a ++ b)%string = String.substring 0 n b.
Proof. induction a; simpl; auto. Qed.

Lemma sub_mid a b c : String.substring (String.length a) (String.length b) (a ++ b ++ c)%string = b.
Proof. rewrite sub_app. apply sub_app0. Qed.

Lemma last_byte_app p c : last_byte (p ++ String c "")%string = Some c.
Proof.
  induction p as [|d p IH]; [reflexivity|].
  simpl. destruct (p ++ String c "")%string eqn:E; [destruct p; discriminate|exact IH].
Qed.

Lemma last_byte_some s c : last_byte s = Some c -> s = (but_last s ++ String c "")%string.
Proof.
  unfold but_last. induction s as [|d s IH]; [discriminate|].
  simpl. destruct s as [|e s]; [intros E; injection E as ->; reflexivity|].
  intros E. specialize (IH E). simpl in IH. rewrite Nat.sub_0_r in IH. simpl. rewrite <- IH at 1.
  reflexivity.
Qed.

Lemma but_last_app p c : but_last (p ++ String c "")%string = p.
Proof.
  unfold but_last. rewrite slen_app. simpl. replace (String.length p + 1 - 1) with (String.length p) by lia.
  apply sub_app0.
Qed.

Lemma last_byte_iff s c : last_byte s = Some c <-> exists p, s = (p ++ String c "")%string.
Proof.
  split; [intros H; apply last_byte_some in H; eauto|intros (p & ->); apply last_byte_app].
Qed.

Lemma app_snoc_inj p q c d : (p ++ String c "")%string = (q ++ String d "")%string -> p = q /\ c = d.
Proof.
  intros E. pose proof (f_equal but_last E) as E1. rewrite !but_last_app in E1.
  pose proof (f_equal last_byte E) as E2. rewrite !last_byte_app in E2. split; congruence.
Qed.

Lemma slashed_iff s : is_pattern_name s = true <-> slashed s.
Proof.
  unfold is_pattern_name, slashed. rewrite !andb_true_iff, Nat.ltb_lt. split.
  - intros [[L A] B]. destruct s as [|c s]; [discriminate|]. apply Ascii.eqb_eq in A. subst c.
    destruct (last_byte (String "/" s)) as [d|] eqn:E; [|discriminate]. apply Ascii.eqb_eq in B. subst d.
    simpl in L. destruct s as [|e s]; [simpl in L; lia|].
    change (last_byte (String "/" (String e s))) with (last_byte (String e s)) in E.
    apply last_byte_some in E. exists (but_last (String e s)). simpl. f_equal. exact E.
  - intros (re & ->). simpl. split; [split; [|reflexivity]|].
    + rewrite slen_app. simpl. lia.
    + change (match last_byte (("/" ++ re) ++ "/")%string with Some c => (c =? "/")%char | None => false end = true).
      now rewrite last_byte_app.
Qed.

Lemma not_slashed_iff s : is_pattern_name s = false <-> ~ slashed s.
Proof. rewrite <- slashed_iff. destruct (is_pattern_name s); split; congruence. Qed.

Lemma chomp_opt p : chomp_optional (p ++ "?")%string = (p, true).
Proof. unfold chomp_optional. rewrite last_byte_app, but_last_app. reflexivity. Qed.

Lemma chomp_plain s : ~ (exists p, s = (p ++ "?")%string) -> chomp_optional s = (s, false).
Proof.
  intros H. unfold chomp_optional. destruct (last_byte s) as [c|] eqn:E; [|reflexivity].
  destruct (Ascii.eqb_spec c "?"%char) as [->|]; [|reflexivity].
  exfalso. apply H. apply last_byte_iff in E. exact E.
Qed.

Lemma chomp_dec s : (exists p, s = (p ++ "?")%string) \/ ~ (exists p, s = (p ++ "?")%string).
Proof.
  destruct (last_byte s) as [c|] eqn:E.
  - destruct (Ascii.eqb_spec c "?"%char) as [->|N].
    + left. now apply last_byte_iff.
    + right. intros H. apply last_byte_iff in H. congruence.
  - right. intros H. apply last_byte_iff in H. congruence.
Qed.

Theorem declare_iff compiles node req d :
  declare_property compiles node req = Ok d <-> declares compiles node req d.
Proof.
  split.
  - unfold declare_property. intros H. destruct (chomp_dec node) as [(p & ->)|N].
    + rewrite chomp_opt in H. destruct (is_pattern_name p) eqn:Ep.
      * destruct req; discriminate.
      * apply not_slashed_iff in Ep. injection H as <-.
        destruct req as [r|]; simpl; [apply dec_explicit_optional|apply dec_optional]; assumption.
    + rewrite (chomp_plain _ N) in H. destruct (is_pattern_name node) eqn:Ep.
      * apply slashed_iff in Ep. destruct Ep as (re & ->).
        destruct req as [r|]; [discriminate|]. unfold make_pattern_property in H.
        assert (Es : String.substring 1 (String.length ("/" ++ re ++ "/")%string - 2) ("/" ++ re ++ "/")%string = re).
        { simpl. rewrite slen_app. simpl. replace (String.length re + 1 - 1) with (String.length re) by lia.
          apply sub_app0. }
        rewrite Es in H. destruct (compiles re) eqn:Ec; [|discriminate]. injection H as <-.
        now apply dec_pattern.
      * apply not_slashed_iff in Ep. injection H as <-.
        destruct req as [r|]; simpl; [apply dec_explicit_plain|apply dec_plain]; assumption.
  - unfold declare_property. intros H. inversion H as [s N S|p S|s r N S|p r S|re C]; subst.
    + rewrite (chomp_plain _ N). apply not_slashed_iff in S. now rewrite S.
    + rewrite chomp_opt. apply not_slashed_iff in S. now rewrite S.
    + rewrite (chomp_plain _ N). apply not_slashed_iff in S. now rewrite S.
    + rewrite chomp_opt. apply not_slashed_iff in S. now rewrite S.
    + rewrite chomp_plain.
      * assert (Sl : is_pattern_name ("/" ++ re ++ "/") = true) by (apply slashed_iff; exists re; reflexivity).
        rewrite Sl. unfold make_pattern_property.
        assert (Es : String.substring 1 (String.length ("/" ++ re ++ "/")%string - 2) ("/" ++ re ++ "/")%string = re).
        { simpl. rewrite slen_app. simpl. replace (String.length re + 1 - 1) with (String.length re) by lia.
          apply sub_app0. }
        rewrite Es, C. reflexivity.
      * intros (p & E). change ("/" ++ re ++ "/")%string with (("/" ++ re) ++ "/")%string in E.
        apply app_snoc_inj in E. destruct E as [_ E]. discriminate.
Qed.

(** * References *)
Lemma prefix_dot s : String.prefix "." s = true <-> exists t, s = String "." t.
Proof.
  split.
  - destruct s as [|c s]; [discriminate|]. cbn [String.prefix].
    destruct (ascii_dec "." c) as [<-|N]; [intros _; exists s; reflexivity|discriminate].
  - intros (t & ->). destruct t; reflexivity.
Qed.

Lemma last_index_none s : last_index "." s = None <-> no_dot s.
Proof.
  unfold no_dot. induction s as [|c s IH].
  - simpl. split; [tauto|reflexivity].
  - cbn [last_index]. destruct (last_index "." s) eqn:E.
    + split; [discriminate|]. intros H. exfalso.
      assert (Q : last_index "." s <> None) by congruence. apply Q. rewrite E. apply IH. intros K. apply H. now right.
    + destruct (String.prefix "." (String c s)) eqn:P.
      * split; [discriminate|]. intros H. apply prefix_dot in P. destruct P as (t & P). injection P as -> ->.
        exfalso. apply H. now left.
      * split; [|reflexivity]. intros _ [K|K]; [|apply (proj1 IH eq_refl), K].
        subst c. assert (String.prefix "." (String "." s) = true) by (apply prefix_dot; eauto). congruence.
Qed.

Lemma last_index_some s i : last_index "." s = Some i <->
  exists b a, s = (b ++ "." ++ a)%string /\ no_dot a /\ i = String.length b.
Proof.
  revert i. induction s as [|c s IH]; intros i.
  - simpl. split; [discriminate|]. intros (b & a & E & _). destruct b; discriminate.
  - cbn [last_index]. destruct (last_index "." s) as [j|] eqn:E.
    + split.
      * intros Q. injection Q as <-. destruct (proj1 (IH j) eq_refl) as (b & a & -> & N & ->).
        exists (String c b), a. auto.
      * intros (b & a & Es & N & ->). destruct b as [|d b].
        -- simpl in Es. injection Es as -> ->. apply last_index_none in N. congruence.
        -- simpl in Es. injection Es as -> Es.
           assert (Q : Some j = Some (String.length b)) by (apply IH; exists b, a; auto). injection Q as ->. reflexivity.
    + apply last_index_none in E. destruct (String.prefix "." (String c s)) eqn:P.
      * apply prefix_dot in P. destruct P as (t & P). injection P as -> ->. split.
        -- intros Q. injection Q as <-. exists "", t. auto.
        -- intros (b & a & Es & N & ->). destruct b as [|d b]; [reflexivity|].
           simpl in Es. injection Es as _ Es. exfalso. apply E. rewrite Es. unfold chars.
           clear. induction b; simpl; auto.
      * split; [discriminate|]. intros (b & a & Es & N & ->). destruct b as [|d b].
        -- simpl in Es. injection Es as -> ->.
           assert (String.prefix "." (String "." a) = true) by (apply prefix_dot; eauto). congruence.
        -- simpl in Es. injection Es as _ Es. exfalso. apply E. rewrite Es. unfold chars.
           clear. induction b; simpl; auto.
Qed.

Lemma cut_none s : no_dot s -> cut_reference s = (s, "", false).
Proof. intros N. unfold cut_reference, cut_last. apply last_index_none in N. now rewrite N. Qed.

Lemma cut_some b a : no_dot a -> cut_reference (b ++ "." ++ a)%string = (b, a, true).
Proof.
  intros N. unfold cut_reference, cut_last.
  assert (E : last_index "." (b ++ "." ++ a) = Some (String.length b)) by (apply last_index_some; eauto).
  rewrite E. rewrite sub_app0. f_equal. f_equal.
  change (String.length ".") with 1.
  assert (L : String.length (b ++ "." ++ a) - (String.length b + 1) = String.length a).
  { rewrite !slen_app. simpl. lia. }
  rewrite L. replace (b ++ "." ++ a)%string with ((b ++ ".") ++ a)%string by apply sapp_assoc.
  replace (String.length b + 1) with (String.length (b ++ ".")) by (rewrite slen_app; reflexivity).
  rewrite sub_app. apply sub_all.
Qed.

Lemma dot_cases s : no_dot s \/ exists b a, s = (b ++ "." ++ a)%string /\ no_dot a.
Proof.
  destruct (last_index "." s) as [i|] eqn:E.
  - right. apply last_index_some in E. destruct E as (b & a & Es & N & _). eauto.
  - left. now apply last_index_none.
Qed.

Lemma snoc_dot_inj b a b' a' : no_dot a -> no_dot a' ->
  (b ++ "." ++ a)%string = (b' ++ "." ++ a')%string -> b = b' /\ a = a'.
Proof.
  intros N N' E. pose proof (cut_some b a N) as C1. rewrite E, (cut_some b' a' N') in C1.
  injection C1 as -> ->. auto.
Qed.

Lemma has_dot b a : ~ no_dot (b ++ "." ++ a)%string.
Proof. intros N. apply N. clear N. unfold chars. induction b; simpl; auto. Qed.

Theorem lib_reference_iff sel L l name a :
  lib_reference sel L l name = Ok a <-> denotes sel L l name a.
Proof.
  unfold lib_reference. destruct (dot_cases name) as [N|(b & x & -> & N)].
  - rewrite (cut_none _ N). simpl. split.
    + destruct (oget name (sel l)) eqn:E; [|discriminate]. intros Q. injection Q as <-. now apply den_local.
    + intros H. inversion H as [? ? E|? ? ? ? ? ? ? ? ? ? E]; subst; [now rewrite E|]. exfalso. eapply has_dot; eauto.
  - rewrite (cut_some _ _ N). cbn [negb]. destruct (oget (b ++ "." ++ x)%string (sel l)) as [v|] eqn:E0.
    + split.
      * intros Q. injection Q as <-. now apply den_local.
      * intros H. inversion H as [? ? E|al T la lib ? NT E EU EL ET ES]; subst; [congruence|].
        change (oget (al ++ String "." T)%string (sel l) = None) in E. rewrite ES in E.
        change (oget (b ++ String "." x)%string (sel l) = Some v) in E0. congruence.
    + split.
      * destruct (oget b (l_uses l)) as [[la|]|] eqn:E1; try discriminate.
        destruct (nth_error L la) as [lib|] eqn:E2; [|discriminate].
        destruct (oget x (sel lib)) as [v|] eqn:E3; [|discriminate].
        intros Q. injection Q as <-. eapply den_external; eauto.
      * intros H. inversion H as [? ? E|al T la lib ? NT E EU EL ET ES]; subst; [congruence|].
        apply snoc_dot_inj in ES; [|assumption|assumption]. destruct ES as [-> ->].
        rewrite EU, EL, ET. reflexivity.
Qed.

Theorem lib_reference_err sel L l name : linked L (l_uses l) ->
  (lib_reference sel L l name = Err <-> ~ exists a, denotes sel L l name a).
Proof.
  intros HL. setoid_rewrite <- lib_reference_iff.
  assert (C : (exists a, lib_reference sel L l name = Ok a) \/ lib_reference sel L l name = Err).
  { unfold lib_reference. destruct (cut_reference name) as [[b x] f]. destruct f; cbn [negb].
    - destruct (oget name (sel l)); [eauto|]. destruct (oget b (l_uses l)) as [v|] eqn:E; [|auto].
      destruct (HL _ _ E) as (la & lib & -> & ->). destruct (oget x (sel lib)); eauto.
    - destruct (oget name (sel l)); eauto. }
  destruct C as [(a & C)|C]; rewrite C; split; try discriminate; try tauto.
  - intros H. exfalso. apply H. eauto.
  - intros _ (a & Q). discriminate.
Qed.

Theorem dt_reference_iff sel L uses name a :
  dt_reference sel L uses name = Ok a <->
  exists b x la lib, name = (b ++ "." ++ x)%string /\ no_dot x /\ oget b uses = Some (Some la)
    /\ nth_error L la = Some lib /\ oget x (sel lib) = Some a.
Proof.
  unfold dt_reference. destruct (dot_cases name) as [N|(b & x & -> & N)].
  - rewrite (cut_none _ N). simpl. split; [discriminate|].
    intros (b & x & la & lib & -> & _). exfalso. exact (has_dot _ _ N).
  - rewrite (cut_some _ _ N). cbn [negb]. split.
    + destruct (oget b uses) as [[la|]|] eqn:E1; try discriminate.
      destruct (nth_error L la) as [lib|] eqn:E2; [|discriminate].
      destruct (oget x (sel lib)) as [v|] eqn:E3; [|discriminate]. intros Q. injection Q as <-.
      exists b, x, la, lib. auto.
    + intros (b' & x' & la & lib & ES & N' & EU & EL & ET).
      apply snoc_dot_inj in ES; [|assumption|assumption]. destruct ES as [-> ->]. now rewrite EU, EL, ET.
Qed.

(** * Heads *)
Lemma read_line_some s l : read_line s = Some l <->
  exists line rest, s = (line ++ String newline rest)%string /\ ~ In newline (chars line)
    /\ l = (line ++ String newline "")%string.
Proof.
  revert l. induction s as [|c s IH]; intros l.
  - simpl. split; [discriminate|]. intros (line & rest & E & _). destruct line; discriminate.
  - cbn [read_line]. destruct (Ascii.eqb_spec c "010"%char) as [->|N].
    + split.
      * intros E. injection E as <-. exists "", s. simpl. auto.
      * intros (line & rest & E & NI & ->). destruct line as [|d line]; [reflexivity|].
        simpl in E. injection E as <- E. exfalso. apply NI. now left.
    + destruct (read_line s) as [t|] eqn:E.
      * split.
        -- intros Q. injection Q as <-. destruct (proj1 (IH t) eq_refl) as (line & rest & -> & NI & ->).
           exists (String c line), rest. split; [reflexivity|]. split; [|reflexivity].
           intros [K|K]; [apply N; exact K|now apply NI].
        -- intros (line & rest & Es & NI & ->). destruct line as [|d line].
           ++ simpl in Es. injection Es as -> _. exfalso. now apply N.
           ++ simpl in Es. injection Es as -> Es. simpl.
              assert (Q : Some t = Some (line ++ String newline "")%string).
              { apply IH. exists line, rest. split; [assumption|]. split; [|reflexivity].
                intros K. apply NI. now right. }
              injection Q as ->. reflexivity.
      * split; [discriminate|]. intros (line & rest & Es & NI & ->). destruct line as [|d line].
        -- simpl in Es. injection Es as -> _. exfalso. now apply N.
        -- simpl in Es. injection Es as -> Es.
           assert (Q : None = Some (line ++ String newline "")%string); [|discriminate].
           apply IH. exists line, rest. split; [assumption|]. split; [|reflexivity].
           intros K. apply NI. now right.
Qed.

Lemma is_trail_iff c : is_trail c = true <-> trailing c.
Proof.
  unfold is_trail, trailing, newline. rewrite !orb_true_iff, !Ascii.eqb_eq. tauto.
Qed.

Lemma trim_right_spec s : exists trail, s = (trim_right s ++ trail)%string
  /\ Forall trailing (chars trail)
  /\ (forall h' c, trim_right s = (h' ++ String c "")%string -> ~ trailing c).
Proof.
  induction s as [|c s (trail & E & F & L)].
  - exists "". split; [reflexivity|]. split; [constructor|]. intros h' c Q. destruct h'; discriminate.
  - simpl. destruct (trim_right s) as [|d t] eqn:Et.
    + destruct (is_trail c) eqn:Ec.
      * exists (String c trail). simpl in *. split; [now rewrite <- E|]. split.
        -- constructor; [now apply is_trail_iff|assumption].
        -- intros h' c' Q. destruct h'; discriminate.
      * exists trail. simpl in *. split; [now rewrite <- E|]. split; [assumption|].
        intros h' c' Q T. destruct h' as [|x [|y h']]; try discriminate. injection Q as <-.
        apply is_trail_iff in T. congruence.
    + exists trail. split; [rewrite E at 1; reflexivity|]. split; [assumption|].
      intros h' c' Q. destruct h' as [|x h']; [destruct t; discriminate|].
      simpl in Q. injection Q as _ Q. eapply L. exact Q.
Qed.

Lemma Forall_chars_app a b : Forall trailing (chars (a ++ b)%string) <-> Forall trailing (chars a) /\ Forall trailing (chars b).
Proof.
  unfold chars. induction a as [|c a IH]; simpl.
  - split; [intros H; split; [constructor|assumption]|tauto].
  - split.
    + intros H. inversion H; subst. split; [constructor; tauto|tauto].
    + intros [H K]. inversion H; subst. constructor; tauto.
Qed.

Lemma snoc_cases s : s = "" \/ exists p c, s = (p ++ String c "")%string.
Proof.
  destruct s as [|c s]; [now left|]. right.
  destruct (last_byte (String c s)) as [d|] eqn:E.
  - apply last_byte_iff in E. destruct E as (p & E). eauto.
  - exfalso. clear -E. revert c E. induction s as [|e s IH]; intros c E; [discriminate|].
    apply (IH e). exact E.
Qed.

(** The decomposition into a head and trailing bytes is unique. *)
Lemma trail_unique t : forall h h' t', (h ++ t)%string = (h' ++ t')%string ->
  Forall trailing (chars t) -> Forall trailing (chars t') ->
  (forall p c, h = (p ++ String c "")%string -> ~ trailing c) ->
  (forall p c, h' = (p ++ String c "")%string -> ~ trailing c) -> h = h'.
Proof.
  remember (String.length t) as n eqn:En. revert t En.
  induction n as [|n IH]; intros t En h h' t' E F F' L L'.
  - destruct t; [|discriminate]. rewrite sapp_nil in E. subst h.
    destruct (snoc_cases t') as [->|(p & c & ->)]; [now rewrite sapp_nil|].
    exfalso. apply (L (h' ++ p)%string c); [symmetry; apply sapp_assoc|].
    apply Forall_chars_app in F'. destruct F' as [_ F']. now inversion F'.
  - destruct (snoc_cases t) as [->|(p & c & ->)]; [discriminate|].
    destruct (snoc_cases t') as [->|(p' & c' & ->)].
    + rewrite sapp_nil in E. subst h'. exfalso. apply (L' (h ++ p)%string c); [symmetry; apply sapp_assoc|].
      apply Forall_chars_app in F. destruct F as [_ F]. now inversion F.
    + rewrite <- !sapp_assoc in E. apply app_snoc_inj in E. destruct E as [E ->].
      apply Forall_chars_app in F. apply Forall_chars_app in F'. destruct F as [F _], F' as [F' _].
      eapply (IH p); eauto. rewrite slen_app in En. simpl in En. lia.
Qed.

Lemma read_head_at r :
  read_head r =
  match read_line (String.substring (rd_pos r) (String.length (rd_data r) - rd_pos r) (rd_data r)) with
  | None => (Err, Rd (rd_data r) (String.length (rd_data r)))
  | Some l => (Ok (trim_right l), Rd (rd_data r) 0)
  end.
Proof. reflexivity. Qed.

Lemma read_line_trim data l h : read_line data = Some l -> (h = trim_right l <-> first_line data h).
Proof.
  intros E. destruct (proj1 (read_line_some _ _) E) as (line & rest & -> & NI & ->). split.
  - intros ->. destruct (trim_right_spec (line ++ String newline "")) as (trail & E1 & F & L).
    exists line, rest, trail. auto.
  - intros (line' & rest' & trail & Es & NI' & El & F & L).
    assert (E2 : read_line (line ++ String newline rest) = Some (line' ++ String newline "")%string).
    { rewrite Es. apply read_line_some. eauto. }
    rewrite E in E2. injection E2 as E2. rewrite <- E2 in El.
    destruct (trim_right_spec (line ++ String newline "")) as (trail' & E1 & F' & L').
    eapply trail_unique; [|exact F|exact F'|exact L|exact L']. now rewrite <- E1, <- El.
Qed.

Theorem read_head_iff data h : fst (read_head (Rd data 0)) = Ok h <-> first_line data h.
Proof.
  rewrite read_head_at. simpl rd_pos. simpl rd_data. rewrite Nat.sub_0_r, sub_all.
  destruct (read_line data) as [l|] eqn:E; simpl.
  - rewrite <- (read_line_trim _ _ h E). split; [intros Q; now injection Q|intros ->; reflexivity].
  - split; [discriminate|]. intros (line & rest & trail & Es & NI & _).
    assert (Q : read_line data = Some (line ++ String newline "")%string) by (apply read_line_some; eauto).
    congruence.
Qed.

Theorem read_head_fails data : fst (read_head (Rd data 0)) = Err <-> ~ In newline (chars data).
Proof.
  rewrite read_head_at. simpl rd_pos. simpl rd_data. rewrite Nat.sub_0_r, sub_all.
  destruct (read_line data) as [l|] eqn:E; simpl.
  - split; [discriminate|]. intros N. exfalso. apply N. apply read_line_some in E.
    destruct E as (line & rest & -> & _ & _). unfold chars. clear. induction line; simpl; auto.
  - split; [|reflexivity]. intros _ H.
    assert (Q : exists line rest, data = (line ++ String newline rest)%string /\ ~ In newline (chars line)).
    { clear E. induction data as [|c data IH]; [destruct H|].
      destruct (ascii_dec c newline) as [->|N]; [exists "", data; simpl; auto|].
      destruct H as [H|H]; [congruence|]. destruct (IH H) as (line & rest & -> & K).
      exists (String c line), rest. split; [reflexivity|]. intros [A|A]; tauto. }
    destruct Q as (line & rest & -> & K).
    assert (read_line (line ++ String newline rest) = Some (line ++ String newline "")%string)
      by (apply read_line_some; eauto). congruence.
Qed.

Theorem read_head_restores r h r' : read_head r = (Ok h, r') -> r' = Rd (rd_data r) 0.
Proof.
  rewrite read_head_at. destruct (read_line _); intros E; inversion E; reflexivity.
Qed.

Theorem identify_fragment_iff head k : identify_fragment head = Ok k <-> header k = Some head.
Proof.
  unfold identify_fragment. split.
  - destruct (String.eqb_spec head "#%RAML 1.0 Library") as [->|]; [intros E; injection E as <-; reflexivity|].
    destruct (String.eqb_spec head "#%RAML 1.0 DataType") as [->|]; [intros E; injection E as <-; reflexivity|].
    destruct (String.eqb_spec head "#%RAML 1.0 NamedExample") as [->|]; [intros E; injection E as <-; reflexivity|discriminate].
  - destruct k; intros E; try discriminate; injection E as <-; reflexivity.
Qed.

Lemma identify_fragment_cases head : (exists k, identify_fragment head = Ok k) \/ identify_fragment head = Err.
Proof.
  unfold identify_fragment.
  destruct (String.eqb head "#%RAML 1.0 Library"); [eauto|].
  destruct (String.eqb head "#%RAML 1.0 DataType"); [eauto|].
  destruct (String.eqb head "#%RAML 1.0 NamedExample"); eauto.
Qed.

Lemma kind_eqb_eq a b : kind_eqb a b = true <-> a = b.
Proof. destruct a, b; simpl; split; congruence. Qed.

Lemma has_suffix_iff suf s : has_suffix suf s = true <-> exists p, s = (p ++ suf)%string.
Proof.
  unfold has_suffix. rewrite andb_true_iff, Nat.leb_le, String.eqb_eq. split.
  - intros [L E].
    assert (Sp : forall n s, n <= String.length s ->
      s = (String.substring 0 n s ++ String.substring n (String.length s - n) s)%string).
    { clear. induction n as [|n IH]; intros s L; [destruct s; simpl; [reflexivity|]|].
      - f_equal. symmetry. apply sub_all.
      - destruct s as [|c s]; [simpl in L; lia|]. simpl in *. f_equal. apply IH. lia. }
    exists (String.substring 0 (String.length s - String.length suf) s).
    rewrite (Sp (String.length s - String.length suf) s) at 1 by lia.
    replace (String.length s - (String.length s - String.length suf)) with (String.length suf) by lia.
    now rewrite E.
  - intros (p & ->). rewrite slen_app. split; [lia|].
    replace (String.length p + String.length suf - String.length suf) with (String.length p) by lia.
    rewrite sub_app. apply sub_all.
Qed.

Theorem check_kind_iff name data k :
  fst (check_kind name (Rd data 0) k) = Ok tt <->
  (k = KDataType /\ exists p, name = (p ++ ".json")%string)
  \/ (exists h, first_line data h /\ header k = Some h).
Proof.
  unfold check_kind. destruct (kind_eqb k KDataType && has_suffix ".json" name) eqn:E.
  - apply andb_true_iff in E. destruct E as [E1 E2]. apply kind_eqb_eq in E1. apply has_suffix_iff in E2.
    simpl. tauto.
  - assert (N : ~ (k = KDataType /\ exists p, name = (p ++ ".json")%string)).
    { intros [-> K]. apply has_suffix_iff in K. rewrite K in E. discriminate. }
    setoid_rewrite <- read_head_iff. setoid_rewrite <- identify_fragment_iff.
    destruct (read_head (Rd data 0)) as [[h| | |] r'] eqn:ER; simpl;
      try (split; [discriminate|]; intros [K|(h' & Q & _)]; [tauto|discriminate]).
    destruct (identify_fragment_cases h) as [(k' & Ek)|Ek]; rewrite Ek.
    + destruct (kind_eqb k' k) eqn:Q; simpl.
      * apply kind_eqb_eq in Q. subst. split; [|reflexivity]. intros _. right. eauto.
      * split; [discriminate|]. intros [K|(h' & Q1 & Q2)]; [tauto|]. injection Q1 as <-.
        rewrite Ek in Q2. injection Q2 as ->. rewrite (proj2 (kind_eqb_eq k k) eq_refl) in Q. discriminate.
    + simpl. split; [discriminate|]. intros [K|(h' & Q1 & Q2)]; [tauto|]. injection Q1 as <-. congruence.
Qed.

(** * Command line *)
Theorem cli_last parse a args : cli_exit parse (a :: args) = if parse (last args a) then 0%Z else 1%Z.
Proof.
  unfold cli_exit. simpl.
  assert (H : forall args b x, b = parse x -> cli_loop parse b args = parse (last args x)).
  { clear. induction args as [|y args IH]; intros b x E; [exact E|]. simpl cli_loop.
    rewrite (IH (parse y) y eq_refl). destruct args as [|z args]; [reflexivity|].
    change (last (y :: z :: args) x) with (last (z :: args) x). f_equal.
    clear. revert z. induction args as [|w args IH]; intros z; [reflexivity|]. apply (IH w). }
  now rewrite (H args (parse a) a eq_refl).
Qed.
