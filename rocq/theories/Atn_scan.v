(** Proofs: the automaton of the lexer makes the tokens that the rules describe. *)
From Coq Require Import List ZArith Bool Lia String Ascii Arith.
From Verif Require Import Atn Atn_lexer Spec_Atn Rdt Spec_Rdt Rdt_proofs.
Import ListNotations.
Open Scope list_scope.
Open Scope Z_scope.

Lemma codes_app a b : codes (a ++ b)%string = codes a ++ codes b.
Proof. unfold codes. induction a as [|c a IH]; simpl; [reflexivity|]. now rewrite IH. Qed.
Lemma codes_len a : List.length (codes a) = String.length a.
Proof. unfold codes. rewrite map_length. induction a as [|c a IH]; simpl; auto. Qed.
Lemma codes_inj a : forall b, codes a = codes b -> a = b.
Proof.
  induction a as [|c a IH]; intros [|d b] H; try discriminate; [reflexivity|]. injection H as H K. f_equal; [|auto].
  apply Nat2Z.inj in H. rewrite <- (ascii_nat_embedding c), <- (ascii_nat_embedding d). now rewrite H.
Qed.
Lemma codes_split s : forall w r, codes s = w ++ r -> exists a b, s = (a ++ b)%string /\ codes a = w /\ codes b = r.
Proof.
  induction s as [|c s IH]; intros w r H.
  - destruct w; [|discriminate]. exists ""%string, ""%string. simpl in *. auto.
  - destruct w as [|x w].
    + exists ""%string, (String c s). auto.
    + injection H as <- H. destruct (IH _ _ H) as (a & b & -> & <- & <-). exists (String c a), b. auto.
Qed.

Definition altn (k : tok) : nat := Z.to_nat (tok_type k - 1).

Lemma id_code c : in_ranges (Z.of_nat (nat_of_ascii c)) idr <-> identifier_char c.
Proof.
  unfold in_ranges, identifier_char. split.
  - intros (a & b & J & B). unfold idr in J. cbn [In] in J.
    assert (K : forall d, nat_of_ascii c = nat_of_ascii d -> c = d).
    { intros d E. rewrite <- (ascii_nat_embedding c), <- (ascii_nat_embedding d). now rewrite E. }
    destruct J as [J|[J|[J|[J|[J|[]]]]]]; injection J as <- <-.
    + assert (X : nat_of_ascii c = 45%nat \/ nat_of_ascii c = 46%nat) by lia. destruct X as [X|X].
      * right. right. right. right. left. apply K. exact X.
      * right. right. right. right. right. apply K. exact X.
    + left. lia.
    + right. right. left. lia.
    + right. right. right. left. apply K. change (nat_of_ascii "_") with 95%nat. lia.
    + right. left. lia.
  - intros [H|[H|[H|[-> |[-> | ->]]]]].
    + exists 48, 57. split; [cbn; tauto|lia].
    + exists 97, 122. split; [cbn; tauto|lia].
    + exists 65, 90. split; [cbn; tauto|lia].
    + exists 95, 95. split; [cbn; tauto|]. cbn. lia.
    + exists 45, 46. split; [cbn; tauto|]. cbn. lia.
    + exists 45, 46. split; [cbn; tauto|]. cbn. lia.
Qed.
Lemma id_codes s : Forall (fun c => in_ranges c idr) (codes s) <-> all_chars identifier_char s.
Proof.
  unfold codes. induction s as [|c s IH]; simpl; [split; auto|]. split.
  - intros H. inversion H; subst. rewrite id_code in H2. tauto.
  - intros [H K]. constructor; [now apply id_code|tauto].
Qed.

Lemma rule_means k t : rule k t -> means texts (altn k) (codes t) [] (tok_type k).
Proof.
  intros H. destruct H.
  21: { right. left. split; [reflexivity|]. split; [destruct s; [congruence|discriminate]|]. split; [now apply id_codes|auto]. }
  all: left; eexists; split; [reflexivity|]; split; [reflexivity|]; split; reflexivity.
Qed.

Lemma text_rule n t : nth_error texts n = Some (codes t) -> exists k, rule k t /\ altn k = n /\ Z.of_nat n + 1 = tok_type k.
Proof.
  intros H.
  assert (G : forall u k, rule k u -> nth_error texts n = Some (codes u) -> altn k = n -> Z.of_nat n + 1 = tok_type k ->
    exists k, rule k t /\ altn k = n /\ Z.of_nat n + 1 = tok_type k).
  { intros u k R N Q1 Q2. rewrite N in H. injection H as H. apply codes_inj in H. subst u. eauto. }
  do 20 (destruct n as [|n]; [eapply G; [constructor|reflexivity|reflexivity|reflexivity]|]). destruct n; discriminate.
Qed.
Lemma means_rule n t typ : means texts n (codes t) [] typ -> exists k, rule k t /\ altn k = n /\ typ = tok_type k.
Proof.
  intros [(u & N & <- & _ & ->)|[(-> & W & F & _ & ->)|(_ & _ & X & _)]]; [| |discriminate].
  - apply text_rule in N. exact N.
  - exists (KIdent t). split; [constructor; [intros ->; now elim W|now apply id_codes]|]. split; reflexivity.
Qed.
Lemma means_acts n w acts typ : means texts n w acts typ -> acts = [] \/ (n = 21%nat /\ (w = [9] \/ w = [32]) /\ acts = [0%nat]).
Proof.
  intros [(u & N & <- & -> & ->)|[(-> & W & F & -> & ->)|(-> & (c & -> & a & b & J & B) & -> & ->)]]; auto. right.
  split; [reflexivity|]. split; [|reflexivity]. destruct J as [J|[J|[]]]; injection J as <- <-; [left|right]; f_equal; lia.
Qed.
Lemma rule_full k t : rule k t -> t <> ""%string.
Proof. intros H. destruct H; try discriminate. assumption. Qed.
Lemma altn_le k : (altn k <= 20)%nat.
Proof. unfold altn. destruct k as [| | | | | |p|s]; simpl; try lia. destruct p; simpl; lia. Qed.
Lemma rule_same k k' t : rule k t -> rule k' t -> ~ earlier k' k -> (altn k <= altn k')%nat.
Proof.
  intros H H' E. destruct k' as [| | | | | |p'|s'].
  8: { exact (altn_le k). }
  all: destruct k as [| | | | | |p|s]; try (elim E; exact Logic.I); inversion H; subst; inversion H'; subst; lia.
Qed.
Lemma earlier_alt k k' : (altn k <= altn k')%nat -> ~ earlier k' k.
Proof.
  unfold altn. destruct k' as [| | | | | |p'|s'], k as [| | | | | |p|s]; simpl; try tauto; intros H _; try lia. destruct p'; simpl in H; lia.
Qed.

Lemma scan_codes cs l : scans lexer_atn cs l -> forall s, cs = codes s -> exists toks, lexes s toks /\ l = map (tok_code) toks.
Proof.
  induction 1 as [|k w acts typ cs l W M Lo Fi H IH]; intros s Q.
  - destruct s; [|discriminate]. exists []. split; [constructor|reflexivity].
  - symmetry in Q. apply codes_split in Q. destruct Q as (a & b & -> & <- & <-). destruct (IH b eq_refl) as (toks & Lx & ->).
    apply lexer_means in M. destruct (means_acts _ _ _ _ M) as [->|(-> & Ws & ->)].
    + rewrite (proj1 lexer_channel). cbn [Z.eqb]. destruct (means_rule _ _ _ M) as (kt & R & <- & ->).
      exists (kt :: toks). split.
      * constructor; [exact R| | |exact Lx].
        -- intros k' t' s' R' Q. rewrite <- !codes_len. eapply (Lo (altn k') (codes t') [] (tok_type k') (codes s')).
           ++ now rewrite <- !codes_app, Q.
           ++ apply lexer_means. now apply rule_means.
        -- intros k' R'. apply earlier_alt. eapply (Fi (altn k') [] (tok_type k')). apply lexer_means. now apply rule_means.
      * cbn [map]. f_equal. unfold tok_code. f_equal. f_equal. clear - R. destruct R; reflexivity.
    + rewrite (proj2 lexer_channel). cbn [Z.eqb]. exists toks. split; [|reflexivity].
      destruct Ws as [Ws|Ws]; [change [9] with (codes (String "009" "")) in Ws|change [32] with (codes " ") in Ws]; apply codes_inj in Ws; subst a; simpl; now constructor.
Qed.

(** What starts with white space is one character of white space. *)
Lemma means_space n c w acts typ r r' : (c = 9 \/ c = 32) -> means texts n w acts typ -> w ++ r' = c :: r -> w <> [] -> w = [c] /\ n = 21%nat.
Proof.
  intros C M Q W. destruct w as [|x w]; [now elim W|]. injection Q as -> Q.
  destruct M as [(u & N & <- & -> & ->)|[(-> & _ & F & -> & ->)|(-> & (d & E & _) & -> & ->)]].
  - exfalso. assert (T : forallb (fun t => match t with x :: _ => negb (x =? 9) && negb (x =? 32) | [] => true end) texts = true) by (vm_compute; reflexivity).
    rewrite forallb_forall in T. apply nth_error_In in N. apply T in N. apply andb_prop in N. destruct N as [N1 N2].
    destruct C as [-> | ->]; discriminate.
  - exfalso. inversion F as [|? ? (a & b & J & B) _]; subst. unfold idr in J. cbn [In] in J.
    destruct J as [J|[J|[J|[J|[J|[]]]]]]; injection J as <- <-; lia.
  - injection E as -> ->. auto.
Qed.

Lemma scan_space c cs l : (c = 9 \/ c = 32) -> scans lexer_atn cs l -> scans lexer_atn (c :: cs) l.
Proof.
  intros C H. replace l with (if channel lexer_atn [0%nat] =? 0 then (22, [c]) :: l else l) by (rewrite (proj2 lexer_channel); reflexivity).
  change (c :: cs) with ([c] ++ cs). apply (sc_tok lexer_atn 21 [c] [0%nat] 22 cs l).
  - discriminate.
  - apply lexer_means. right. right. split; [reflexivity|]. split; [|auto]. exists c. split; [reflexivity|].
    destruct C as [-> | ->]; [exists 9, 9|exists 32, 32]; (split; [cbn; tauto|lia]).
  - intros k' w' acts' typ' s' Q M. apply lexer_means in M. destruct w' as [|x w']; [simpl; lia|].
    destruct (means_space k' c (x :: w') acts' typ' cs s' C M Q) as [-> _]; [discriminate|]. simpl; lia.
  - intros k' acts' typ' M. apply lexer_means in M. destruct (means_space k' c [c] acts' typ' [] [] C M eq_refl) as [_ ->]; [discriminate|]. lia.
  - exact H.
Qed.

Lemma lexes_scans s toks : lexes s toks -> scans lexer_atn (codes s) (map (tok_code) toks).
Proof.
  induction 1 as [|s l H IH|s l H IH|k t s l R Lo Fi H IH].
  - constructor.
  - apply (scan_space 32); auto.
  - apply (scan_space 9); auto.
  - rewrite codes_app. cbn [map].
    replace (tok_code k :: map (tok_code) l)
      with (if channel lexer_atn [] =? 0 then (tok_type k, codes t) :: map (tok_code) l else map (tok_code) l).
    2: { rewrite (proj1 lexer_channel). cbn [Z.eqb]. unfold tok_code at 2. do 3 f_equal. clear - R. destruct R; reflexivity. }
    apply (sc_tok lexer_atn (altn k)).
    + intros Q. apply (rule_full _ _ R). destruct t; [reflexivity|discriminate].
    + apply lexer_means. now apply rule_means.
    + intros k' w' acts' typ' s' Q M. apply lexer_means in M. rewrite <- codes_app in Q. symmetry in Q. apply codes_split in Q.
      destruct Q as (a & b & Q & <- & <-). rewrite !codes_len. destruct (means_acts _ _ _ _ M) as [->|(_ & Ws & _)].
      * destruct (means_rule _ _ _ M) as (k2 & R2 & _). exact (Lo k2 a b R2 Q).
      * rewrite <- codes_len. destruct Ws as [-> | ->]; simpl; pose proof (rule_full _ _ R); destruct t; simpl; congruence || lia.
    + intros k' acts' typ' M. apply lexer_means in M. destruct (means_acts _ _ _ _ M) as [->|(-> & _)].
      * destruct (means_rule _ _ _ M) as (k2 & R2 & <- & _). exact (rule_same k k2 t R R2 (Fi k2 R2)).
      * pose proof (altn_le k). lia.
    + exact IH.
Qed.

(** No other characters than those of ASCII are ever read. *)
Lemma means_ascii n w acts typ : means texts n w acts typ -> Forall (fun c => 0 <= c < 128) w.
Proof.
  intros [(u & N & <- & -> & ->)|[(-> & _ & F & -> & ->)|(-> & (d & -> & a & b & J & B) & -> & ->)]].
  - assert (T : forallb (fun t => forallb (fun x => (0 <=? x) && (x <? 128)) t) texts = true) by (vm_compute; reflexivity).
    rewrite forallb_forall in T. apply nth_error_In, T in N. rewrite forallb_forall in N. apply Forall_forall. intros x J. apply N in J. lia.
  - revert F. apply Forall_impl. intros c (a & b & J & B). unfold idr in J. cbn [In] in J. destruct J as [J|[J|[J|[J|[J|[]]]]]]; injection J as <- <-; lia.
  - unfold wsr in J. cbn [In] in J. constructor; [|constructor]. destruct J as [J|[J|[]]]; injection J as <- <-; lia.
Qed.
Lemma scan_ascii cs l : scans lexer_atn cs l -> Forall (fun c => 0 <= c < 128) cs.
Proof. induction 1 as [|k w acts typ cs l W M Lo Fi H IH]; [constructor|]. apply Forall_app. split; [|exact IH]. apply lexer_means in M. exact (means_ascii _ _ _ _ M). Qed.
