(** Which hooks are asked, and that their objections are not lost. *)
From Coq Require Import ZArith List String Bool.
From Verif Require Import Base Scalars Heap Validate Spec_Validate Names Rdt Resolve Yaml Pipeline Spec_Pipeline Decode Parse Hooked.
From Verif Require Check_proofs Inherit_proofs Validate_proofs Heap_lemmas Pipeline_proofs Decode_says.
Import Heap_lemmas.
Import ListNotations.
Open Scope string_scope.
Open Scope list_scope.
Open Scope nat_scope.

Section Hooked.
Variable H : hooks.

Lemma asked_ok e s : asked H e s = Ok tt -> H e s = false.
Proof. unfold asked. destruct (H e s); [discriminate|reflexivity]. Qed.
Lemma rbind_ok {A B} (r : res A) (f : A -> res B) b : rbind r f = Ok b -> exists a, r = Ok a /\ f a = Ok b.
Proof. destruct r; try discriminate. simpl. eauto. Qed.

(** * validateShapeCommons *)

(** All four hooks on the type [d]. *)
Definition commons_asked (s : st) (d : addr) : Prop :=
  H (BeforeValidateShapeCommons d) s = false /\ H (BeforeValidateShapeFacets d) s = false /\ H (BeforeValidateExamples d) s = false
  /\ forall f, Spec_Validate.shape_at (heap s) d (SObject f) -> H (BeforeValidateObjectShape f) s = false.

Lemma commons_h_local n O s a :
  commons_h H (S n) O s a = Ok tt ->
  commons_asked s a
  /\ (forall sh c, Spec_Validate.shape_at (heap s) a sh -> (forall hd, sh <> SRec hd) -> child (heap s) sh c -> commons_h H n O s c = Ok tt)
  /\ (forall b m k p, get_base (heap s) a = Some b -> get_props (heap s) (b_fdefs b) = Some m -> In (k, p) m -> commons_h H n O s (p_base p) = Ok tt).
Proof.
  intros E. cbn [commons_h] in E. apply rbind_ok in E. destruct E as [[] [A1 E]]. apply asked_ok in A1.
  destruct (get_base (heap s) a) as [b|] eqn:Eb; [|discriminate].
  apply rbind_ok in E. destruct E as [[] [A2 E]]. apply asked_ok in A2. apply rbind_ok in E. destruct E as [[] [_ E]].
  apply rbind_ok in E. destruct E as [[] [A3 E]]. apply asked_ok in A3. apply rbind_ok in E. destruct E as [[] [_ E]].
  apply rbind_ok in E. destruct E as [[] [E3 E4]]. split; [|split].
  - split; [exact A1|]. split; [exact A2|]. split; [exact A3|]. intros f (b' & Eb' & Es). rewrite Eb in Eb'. injection Eb' as <-.
    rewrite Es in E3. apply rbind_ok in E3. destruct E3 as [[] [A4 _]]. now apply asked_ok in A4.
  - intros sh c (b' & Eb' & Es) N K. rewrite Eb in Eb'. injection Eb' as <-. rewrite Es in E3. inversion K; subst.
    + rewrite H0 in E3. exact E3.
    + apply rbind_ok in E3. destruct E3 as [[] [_ E3]].
      destruct (opt_props (heap s) (o_props f)) as [l1|] eqn:E1; [|discriminate].
      destruct (opt_props (heap s) (o_pprops f)) as [l2|] eqn:E2; [|discriminate].
      apply rbind_ok in E3. destruct E3 as ([] & E3 & _).
      apply Validate_proofs.opt_props_of in E1. assert (l1 = ps) by (eapply Validate_proofs.props_of_fun; eauto). subst l1.
      rewrite Check_proofs.check_all_ok in E3. apply E3. apply Check_proofs.in_bases. eauto.
    + apply rbind_ok in E3. destruct E3 as [[] [_ E3]].
      destruct (opt_props (heap s) (o_props f)) as [l1|] eqn:E1; [|discriminate].
      destruct (opt_props (heap s) (o_pprops f)) as [l2|] eqn:E2; [|discriminate].
      apply rbind_ok in E3. destruct E3 as ([] & _ & E3).
      apply Validate_proofs.opt_props_of in E2. assert (l2 = ps) by (eapply Validate_proofs.props_of_fun; eauto). subst l2.
      rewrite Check_proofs.check_all_ok in E3. apply E3. apply Check_proofs.in_bases. eauto.
    + rewrite H0 in E3. rewrite Check_proofs.check_all_ok in E3. auto.
    + exfalso. eapply N. reflexivity.
  - intros b' m k p Eb' Em J. injection Eb' as <-. rewrite Em in E4. rewrite Check_proofs.check_all_ok in E4. apply E4. apply Check_proofs.in_bases. eauto.
Qed.

Lemma commons_h_parts n O s a d : part_of (heap s) a d -> commons_h H n O s a = Ok tt -> commons_asked s d.
Proof.
  intros P. revert n. induction P as [a|a sh c d Hsh N K P IH|a b0 m k p d Eb Em Hin P IH]; intros n E; (destruct n as [|n]; [discriminate|]);
    destruct (commons_h_local n O s a E) as (A1 & A2 & A3).
  - exact A1.
  - exact (IH n (A2 sh c Hsh N K)).
  - exact (IH n (A3 b0 m k p Eb Em Hin)).
Qed.

(** * ValidateShapes *)

(** Some call for [e] was made, and no hook objected. *)
Definition agreed (e : event) : Prop := exists s, H e s = false.

Lemma ask_ok e s u s' : ask H e s = (Ok u, s') -> H e s = false /\ s' = s.
Proof. unfold ask. destruct (H e s); [discriminate|]. intros E. injection E as _ <-. auto. Qed.

Lemma asking_ok e c m s r s' : asking H e c m s = (Ok r, s') -> fst r = true -> H e s = false /\ m s = (Ok r, s').
Proof.
  unfold asking, bind, try, ask. destruct (H e s).
  - intros E. injection E as <- <-. discriminate.
  - auto.
Qed.

Lemma unwrap_asked n a s r s' : unwrap_h H n a s = (Ok r, s') -> H (BeforeUnwrapShape a) s = false.
Proof. destruct n as [|n]; [discriminate|]. cbn [unwrap_h]. intros E. apply bind_inv in E. destruct E as (? & ? & E & _). apply ask_ok in E. tauto. Qed.

Lemma mark_asked n a s r s' : mark_h H n a s = (Ok r, s') -> H (BeforeFindAndMarkRecursion a) s = false.
Proof. destruct n as [|n]; [discriminate|]. cbn [mark_h]. intros E. apply bind_inv in E. destruct E as (? & ? & E & _). apply ask_ok in E. tauto. Qed.

(** The type [a] or, when it is not unwrapped, an unwrapped copy of it was
    validated, and no hook objected to any part of it. *)
Definition type_asked (n : nat) (a : addr) : Prop :=
  exists s b us s', get_base (heap s) a = Some b
    /\ (b_unwrapped b = true -> us = a /\ s' = s)
    /\ (b_unwrapped b = false -> exists a' s1, clone_detached n a s = (Ok a', s1) /\ H (BeforeUnwrapShape a') s1 = false
                                 /\ agreed (BeforeFindAndMarkRecursion us))
    /\ forall d, part_of (heap s') us d -> commons_asked s' d.

Lemma validate_type_asked n O a c s r s' : validate_type_h H n O a c s = (Ok r, s') -> fst r = true -> type_asked n a.
Proof.
  unfold validate_type_h. intros E G. apply bind_inv in E. destruct E as (o & s1 & E1 & E).
  destruct o as [[us c']|]; [|injection E as <- <-; discriminate].
  apply bind_inv in E. destruct E as (k & s2 & E2 & E). injection E as <- <-. destruct k as [k|]; [|discriminate].
  assert (E1' : val_unwrap_h H n a c s = (Ok (us, c'), s1)).
  { unfold try in E1. destruct (val_unwrap_h H n a c s) as [[x| | |] ?]; try discriminate. now injection E1 as -> ->. }
  assert (E2' : commons_h H n O s1 us = Ok tt).
  { unfold try, check_type_h in E2. destruct (check n O (heap s1) us) as [[]| | |]; try discriminate.
    destruct (commons_h H n O s1 us) as [[]| | |]; try discriminate. reflexivity. }
  clear E1 E2. unfold val_unwrap_h in E1'. apply bind_inv in E1'. destruct E1' as (b & s0 & Eb & E1).
  unfold rd in Eb. destruct (get_base (heap s) a) as [b0|] eqn:Gb; [|discriminate]. injection Eb as -> ->.
  exists s0, b, us, s1. split; [exact Gb|]. destruct (b_unwrapped b).
  - injection E1 as <- <- <-. split; [auto|]. split; [discriminate|]. intros d P. exact (commons_h_parts _ _ _ _ _ P E2').
  - apply bind_inv in E1. destruct E1 as (a' & s3 & C & E1). apply bind_inv in E1. destruct E1 as (us' & s4 & U & E1).
    apply bind_inv in E1. destruct E1 as (z & s5 & K & E1). apply bind_inv in E1. destruct E1 as (b' & s6 & Eb' & E1). injection E1 as -> <- ->.
    split; [discriminate|]. split.
    + intros _. exists a', s3. split; [exact C|]. split; [exact (unwrap_asked _ _ _ _ _ U)|]. exists s4. exact (mark_asked _ _ _ _ _ K).
    + intros d P. exact (commons_h_parts _ _ _ _ _ P E2').
Qed.

Lemma seq2 {A} (m : M (bool * A)) (k : A -> M (bool * A)) s r s' :
  (x <- m ;; y <- k (snd x) ;; ret (fst x && fst y, snd y))%M s = (Ok r, s') -> fst r = true ->
  exists x s1 y, m s = (Ok x, s1) /\ fst x = true /\ k (snd x) s1 = (Ok y, s') /\ fst y = true.
Proof.
  intros E G. apply bind_inv in E. destruct E as (x & s1 & E1 & E). apply bind_inv in E. destruct E as (y & s2 & E2 & E).
  injection E as <- <-. simpl in G. apply andb_true_iff in G. destruct G. exists x, s1, y. auto.
Qed.

Lemma validate_each_asked n O : forall l c s r s', validate_each_h H n O l c s = (Ok r, s') -> fst r = true ->
  forall k a, In (k, a) l -> type_asked n a.
Proof.
  induction l as [|[k0 a0] l IH]; intros c s r s' E G k a J; [destruct J|]. cbn [validate_each_h] in E.
  apply seq2 in E; [|exact G]. destruct E as (x & s1 & y & E1 & G1 & E2 & G2). destruct J as [J|J].
  - injection J as <- <-. exact (validate_type_asked _ _ _ _ _ _ _ E1 G1).
  - exact (IH _ _ _ _ E2 G2 k a J).
Qed.

Lemma validate_types_asked n O l c s r s' : validate_types_h H n O l c s = (Ok r, s') -> fst r = true ->
  agreed (BeforeValidateTypes l) /\ forall k a, In (k, a) l -> type_asked n a.
Proof.
  intros E G. apply asking_ok in E; [|exact G]. destruct E as [A E]. split; [exists s; exact A|]. exact (validate_each_asked _ _ _ _ _ _ _ E G).
Qed.

(** What is asked about the fragment [f]. *)
Definition fragment_asked (n : nat) (R : raml) (f : fragment) : Prop :=
  match f with
  | FLib l => exists lib, nth_error (r_libs R) l = Some lib /\ agreed (BeforeValidateLibrary lib)
                /\ agreed (BeforeValidateTypes (l_annots lib)) /\ agreed (BeforeValidateTypes (l_types lib))
                /\ forall k a, has_type lib k a \/ has_annot lib k a -> type_asked n a
  | FDT _ sh => agreed (BeforeValidateDataType sh) /\ exists a, sh = Some a /\ type_asked n a
  | FNE => True
  end.

Lemma validate_fragment_asked n O R f c s r s' : validate_fragment_h H n O (r_libs R) f c s = (Ok r, s') -> fst r = true -> fragment_asked n R f.
Proof.
  unfold validate_fragment_h, fragment_asked. destruct f as [l|uses sh|]; auto.
  - destruct (nth_error (r_libs R) l) as [lib|]; [|discriminate]. intros E G. apply asking_ok in E; [|exact G]. destruct E as [A E].
    apply seq2 in E; [|exact G]. destruct E as (x & s1 & y & E1 & G1 & E2 & G2).
    apply validate_types_asked in E1; [|exact G1]. apply validate_types_asked in E2; [|exact G2].
    exists lib. split; [reflexivity|]. split; [exists s; exact A|]. split; [apply E1|]. split; [apply E2|].
    intros k a [J|J]; [eapply E2|eapply E1]; exact J.
  - intros E G. apply asking_ok in E; [|exact G]. destruct E as [A E]. split; [exists s; exact A|].
    destruct sh as [a|]; [|discriminate]. exists a. split; [reflexivity|]. exact (validate_type_asked _ _ _ _ _ _ _ E G).
Qed.

Lemma fragments_each_asked n O R : forall order c s r s', fragments_each_h H n O R order c s = (Ok r, s') -> fst r = true ->
  forall loc f, In loc order -> oget loc (r_frags R) = Some f -> fragment_asked n R f.
Proof.
  induction order as [|k order IH]; intros c s r s' E G loc f J F; [destruct J|]. cbn [fragments_each_h] in E.
  destruct J as [->|J].
  - rewrite F in E. apply seq2 in E; [|exact G]. destruct E as (x & s1 & y & E1 & G1 & E2 & G2).
    exact (validate_fragment_asked _ _ _ _ _ _ _ _ E1 G1).
  - destruct (oget k (r_frags R)) as [f0|]; [|exact (IH _ _ _ _ E G loc f J F)].
    apply seq2 in E; [|exact G]. destruct E as (x & s1 & y & E1 & G1 & E2 & G2). exact (IH _ _ _ _ E2 G2 loc f J F).
Qed.

Lemma validate_shapes_asked n O order R s s' : validate_shapes_h H n O order R s = (Ok tt, s') ->
  H BeforeValidateShapes s = false /\ H BeforeValidateFragments s = false /\ agreed BeforeValidateDomainExtensions
  /\ forall loc f, In loc order -> oget loc (r_frags R) = Some f -> fragment_asked n R f.
Proof.
  unfold validate_shapes_h. intros E. apply bind_inv in E. destruct E as (u & s1 & A & E). apply ask_ok in A. destruct A as [A ->].
  apply bind_inv in E. destruct E as (r & s1 & E1 & E). apply bind_inv in E. destruct E as (ok & s2 & E2 & E).
  destruct (fst r) eqn:G; [|discriminate]. destruct ok; [|discriminate].
  apply asking_ok in E1; [|exact G]. destruct E1 as [A1 E1]. split; [exact A|]. split; [exact A1|]. split.
  - exists s1. unfold validate_exts_h, bind, try, ask in E2. destruct (H _ s1); [discriminate|reflexivity].
  - exact (fragments_each_asked _ _ _ _ _ _ _ _ E1 G).
Qed.

(** * UnwrapShapes *)

Lemma unwrap_types_asked n loc : forall l i s l' i' s', unwrap_types_h H n loc l i s = (Ok (true, l', i'), s') ->
  forall k a, In (k, a) l -> agreed (BeforeUnwrapShape a).
Proof.
  induction l as [|[k0 a0] l IH]; intros i s l' i' s' E k a J; [destruct J|]. cbn [unwrap_types_h] in E.
  apply bind_inv in E. destruct E as (r & s1 & E1 & E). destruct r as [us|].
  - apply bind_inv in E. destruct E as (ub & s2 & E2 & E). apply bind_inv in E. destruct E as ([[ok l''] i''] & s3 & E3 & E).
    injection E as -> <- <- <-. destruct J as [J|J]; [|exact (IH _ _ _ _ _ E3 k a J)]. injection J as <- <-.
    exists s. unfold try in E1. destruct (unwrap_h H n a0 s) as [[x| | |] sx] eqn:U; try discriminate. exact (unwrap_asked _ _ _ _ _ U).
  - apply bind_inv in E. destruct E as ([[ok l''] i''] & s3 & E3 & E). discriminate E.
Qed.

(** What is asked about the types of [f] in [u]. *)
Definition unwrap_fragment_asked (L : libs) (f : fragment) : Prop :=
  match f with
  | FLib l => exists lib, nth_error L l = Some lib /\ forall k a, has_type lib k a \/ has_annot lib k a -> agreed (BeforeUnwrapShape a)
  | FDT _ sh => exists a, sh = Some a /\ agreed (BeforeUnwrapShape a)
  | FNE => True
  end.

Lemma unwrap_fragment_step n loc f u s u' s' : unwrap_fragment_h H n loc f u s = (Ok u', s') ->
  (u_ok u' = true -> u_ok u = true /\ unwrap_fragment_asked (u_libs u) f)
  /\ (forall k, k <> loc -> oget k (u_frags u') = oget k (u_frags u))
  /\ (forall l, f <> FLib l -> nth_error (u_libs u') l = nth_error (u_libs u) l).
Proof.
  destruct f as [l|uses [a|]|]; cbn [unwrap_fragment_h]; intros E.
  - destruct (nth_error (u_libs u) l) as [lib|] eqn:N; [|discriminate].
    apply bind_inv in E. destruct E as ([[ok an] ia] & s1 & E1 & E). apply bind_inv in E. destruct E as ([[ok' ty] it] & s2 & E2 & E).
    injection E as <- <-. simpl. split; [|split].
    + intros G. apply andb_true_iff in G. destruct G as [G ->]. apply andb_true_iff in G. destruct G as [G ->]. split; [exact G|].
      exists lib. split; [exact N|]. intros k a [J|J]; [exact (unwrap_types_asked _ _ _ _ _ _ _ _ E2 k a J)|exact (unwrap_types_asked _ _ _ _ _ _ _ _ E1 k a J)].
    + auto.
    + intros l0 D. apply nth_error_upd_neq. congruence.
  - apply bind_inv in E. destruct E as (r & s1 & E1 & E). destruct r as [us|].
    + apply bind_inv in E. destruct E as (x & s2 & E2 & E). apply bind_inv in E. destruct E as (ub & s3 & E3 & E).
      injection E as <- <-. simpl. split; [|split; [|auto]].
      * intros G. split; [exact G|]. exists a. split; [reflexivity|]. exists s. unfold try in E1.
        destruct (unwrap_h H n a s) as [[z| | |] sx] eqn:U; try discriminate. exact (unwrap_asked _ _ _ _ _ U).
      * intros k D. apply Pipeline_proofs.oget_oset_other. congruence.
    + injection E as <- <-. simpl. split; [discriminate|auto].
  - injection E as <- <-. simpl. split; [discriminate|auto].
  - injection E as <- <-. split; [|auto]. intros G. split; [exact G|exact Logic.I].
Qed.

Lemma unwrap_fragments_asked n : forall order u s u' s', unwrap_fragments_h H n order u s = (Ok u', s') ->
  u_ok u' = true -> u_ok u = true /\ forall loc f, In loc order -> oget loc (u_frags u) = Some f -> unwrap_fragment_asked (u_libs u) f.
Proof.
  induction order as [|k order IH]; intros u s u' s' E G; cbn [unwrap_fragments_h] in E.
  - injection E as <- <-. split; [exact G|]. intros loc f [].
  - destruct (oget k (u_frags u)) as [f0|] eqn:F0.
    + apply bind_inv in E. destruct E as (u1 & s1 & E1 & E2). destruct (IH _ _ _ _ E2 G) as [G1 A1].
      destruct (unwrap_fragment_step _ _ _ _ _ _ _ E1) as (B1 & B2 & B3). destruct (B1 G1) as [G0 A0]. split; [exact G0|].
      intros loc f J F. destruct (string_dec loc k) as [->|D]; [rewrite F0 in F; injection F as <-; exact A0|].
      destruct J as [J|J]; [congruence|]. assert (F' : oget loc (u_frags u1) = Some f) by (rewrite (B2 loc D); exact F).
      specialize (A1 loc f J F'). destruct f as [l|uses sh|]; [|exact A1|exact A1].
      destruct f0 as [l0|uses0 sh0|].
      * destruct (Nat.eq_dec l0 l) as [->|D']; [exact A0|]. unfold unwrap_fragment_asked in *. rewrite <- (B3 l); [exact A1|congruence].
      * unfold unwrap_fragment_asked in *. rewrite <- (B3 l); [exact A1|congruence].
      * unfold unwrap_fragment_asked in *. rewrite <- (B3 l); [exact A1|congruence].
    + destruct (IH _ _ _ _ E G) as [G1 A1]. split; [exact G1|]. intros loc f [->|J] F; [congruence|exact (A1 loc f J F)].
Qed.

Lemma mark_all_asked n : forall l s u s', mark_all_h H n l s = (Ok u, s') -> forall a, In a l -> agreed (BeforeFindAndMarkRecursion a).
Proof.
  induction l as [|a0 l IH]; intros s u s' E a J; [destruct J|]. cbn [mark_all_h] in E. apply bind_inv in E. destruct E as (r & s1 & E1 & E).
  destruct J as [->|J]; [exists s; exact (mark_asked _ _ _ _ _ E1)|exact (IH _ _ _ E a J)].
Qed.

Definition mark_fragment_asked (L : libs) (f : fragment) : Prop :=
  match f with
  | FLib l => exists lib, nth_error L l = Some lib /\ forall k a, has_type lib k a \/ has_annot lib k a -> agreed (BeforeFindAndMarkRecursion a)
  | FDT _ sh => exists a, sh = Some a /\ agreed (BeforeFindAndMarkRecursion a)
  | FNE => True
  end.

Lemma mark_fragments_asked n L fs : forall order s u s', mark_fragments_h H n order L fs s = (Ok u, s') ->
  forall loc f, In loc order -> oget loc fs = Some f -> mark_fragment_asked L f.
Proof.
  induction order as [|k order IH]; intros s u s' E loc f J F; [destruct J|]. cbn [mark_fragments_h] in E.
  destruct (oget k fs) as [f0|] eqn:F0.
  - apply bind_inv in E. destruct E as (r & s1 & E1 & E). destruct J as [->|J]; [|exact (IH _ _ _ E loc f J F)].
    rewrite F0 in F. injection F as ->. destruct f as [l|uses [a|]|]; cbn [mark_fragment_h mark_fragment_asked] in *; auto.
    + destruct (nth_error L l) as [lib|]; [|discriminate]. apply bind_inv in E1. destruct E1 as (? & ? & X & Y).
      exists lib. split; [reflexivity|]. intros k' a [J|J].
      * exact (mark_all_asked _ _ _ _ _ Y a (in_map snd _ _ J)).
      * exact (mark_all_asked _ _ _ _ _ X a (in_map snd _ _ J)).
    + exists a. split; [reflexivity|]. exact (mark_all_asked _ _ _ _ _ E1 a (or_introl eq_refl)).
    + discriminate.
  - destruct J as [->|J]; [congruence|exact (IH _ _ _ E loc f J F)].
Qed.

Lemma unwrap_shapes_asked n o1 o2 R s R' s' : unwrap_shapes_h H n o1 o2 R s = (Ok R', s') ->
  (forall loc a, In loc o1 -> declared_in R loc a -> agreed (BeforeUnwrapShape a))
  /\ (forall loc a, In loc o2 -> declared_in R' loc a -> agreed (BeforeFindAndMarkRecursion a)).
Proof.
  unfold unwrap_shapes_h. intros E. apply bind_inv in E. destruct E as (x & s1 & _ & E). apply bind_inv in E. destruct E as (u & s2 & E1 & E).
  destruct (u_ok u) eqn:G; [|discriminate]. simpl in E. apply bind_inv in E. destruct E as (y & s3 & E2 & E).
  apply bind_inv in E. destruct E as (z & s4 & E3 & E). destruct (fst z); [|discriminate]. injection E as <- <-.
  apply unwrap_fragments_asked in E1; [|exact G]. destruct E1 as [_ A]. simpl in A. split.
  - intros loc a J D. destruct D as [l lib k F N T|l lib k F N T|uses F]; specialize (A loc _ J F); simpl in A.
    + destruct A as (lib' & N' & A). rewrite N in N'. injection N' as <-. eauto.
    + destruct A as (lib' & N' & A). rewrite N in N'. injection N' as <-. eauto.
    + destruct A as (a' & X & A). injection X as <-. exact A.
  - intros loc a J D. destruct D as [l lib k F N T|l lib k F N T|uses F]; pose proof (mark_fragments_asked _ _ _ _ _ _ _ E2 loc _ J F) as B; simpl in B.
    + destruct B as (lib' & N' & B). simpl in N. rewrite N in N'. injection N' as <-. eauto.
    + destruct B as (lib' & N' & B). simpl in N. rewrite N in N'. injection N' as <-. eauto.
    + destruct B as (a' & X & B). injection X as <-. exact B.
Qed.

(** * Inheritance *)

Lemma inherit_asked n a src s r s' : inherit_h H n a src s = (Ok r, s') -> H (BeforeInherit a src) s = false.
Proof. destruct n as [|n]; [discriminate|]. cbn [inherit_h]. unfold inherit_body_h. intros E. apply bind_inv in E. destruct E as (x & s1 & A & _). apply ask_ok in A. tauto. Qed.

Lemma inherit_union_asked n a src s r s' b sb : inherit_h H n a src s = (Ok r, s') -> a <> src ->
  get_base (heap s) a = Some b -> get_base (heap s) src = Some sb -> b_visited sb = false ->
  match b_shape b, b_shape sb with
  | _, Some SAny | Some (SUnion _ _), Some (SUnion _ _) => True
  | _, Some (SUnion sa _) => agreed (BeforeInheritUnionSource a sa)
  | Some (SUnion ta _), Some _ => agreed (BeforeInheritUnionTarget a ta)
  | _, _ => True
  end.
Proof.
  destruct n as [|n]; [discriminate|]. cbn [inherit_h]. unfold inherit_body_h. intros E D Gb Gs V.
  apply bind_inv in E. destruct E as (x & s1 & A & E). apply ask_ok in A. destruct A as [A ->].
  apply bind_inv in E. destruct E as (sb' & s2 & R & E). unfold rd in R. rewrite Gs in R. injection R as <- <-.
  rewrite V in E. apply bind_inv in E. destruct E as (y & s2 & W & E). apply bind_inv in E. destruct E as (b' & s3 & R & E).
  assert (b' = b).
  { unfold upd_base in W. apply bind_inv in W. destruct W as (b0 & s0 & R0 & W). apply rd_ok in R0. destruct R0 as [-> _].
    unfold write in W. injection W as _ <-. apply rd_ok in R. destruct R as [_ R]. simpl in R. apply get_base_nth in R.
    rewrite nth_error_upd_neq in R by congruence. apply get_base_nth in R. congruence. }
  subst b'. clear R W.
  do 4 (apply bind_inv in E; destruct E as (? & ? & _ & E)).
  destruct (b_shape b) as [[]|]; destruct (b_shape sb) as [[]|]; auto; apply bind_inv in E; destruct E as (? & s9 & Z & _); apply ask_ok in Z; eexists; apply Z.
Qed.

(** * Parsing *)

Section Parse.
Variable E : denv.

Lemma dask_ok e p u p' : dask H e p = (Ok u, p') -> H e (p_st p) = false.
Proof. unfold dask, hp, ask. destruct (H e (p_st p)); [discriminate|reflexivity]. Qed.

Lemma parse_dt_asked n path p a p' : parse_dt_h H E n path p = (Ok a, p') -> H (BeforeParseDataType path) (p_st p) = false.
Proof. destruct n as [|n]; [discriminate|]. cbn [parse_dt_h]. intros R. apply Decode_says.dbind_inv in R. destruct R as (? & ? & A & _). exact (dask_ok _ _ _ _ A). Qed.

Lemma concrete_asked rec a loc t fs p u p' : concrete_h H E rec a loc t fs p = (Ok u, p') -> H (BeforeMakeConcreteShape a t fs) (p_st p) = false.
Proof. unfold concrete_h. intros R. apply Decode_says.dbind_inv in R. destruct R as (? & ? & A & _). exact (dask_ok _ _ _ _ A). Qed.

Lemma shape_at_asked inc_dt inc_ne n v name loc p a p' : shape_at_h H E inc_dt inc_ne n v name loc p = (Ok a, p') ->
  H (BeforeMakeNewShape v) (p_st p) = false
  /\ ((exists t fs, agreed (BeforeMakeConcreteShape a t fs)) \/ exists n' t fs p0 p1, shape_type E inc_dt (shape_at_h H E inc_dt inc_ne n') a name loc t fs p0 = (Ok None, p1)).
Proof.
  destruct n as [|n]; [discriminate|]. cbn [shape_at_h]. unfold new_shape_h. intros R.
  apply Decode_says.dbind_inv in R. destruct R as (? & ? & A & R). split; [exact (dask_ok _ _ _ _ A)|].
  apply Decode_says.dbind_inv in R. destruct R as (a0 & p1 & _ & R). apply Decode_says.dbind_inv in R. destruct R as (tf & p2 & _ & R).
  apply Decode_says.dbind_inv in R. destruct R as (ty & p3 & T & R). destruct ty as [ty|].
  - left. apply Decode_says.dbind_inv in R. destruct R as (? & p4 & C & R). apply concrete_asked in C.
    apply Decode_says.dbind_inv in R. destruct R as (b & p5 & _ & R).
    assert (a = a0).
    { destruct (b_shape b) as [[]|]; try (apply Decode_says.dret_inv in R; tauto). }
    subst a0. exists ty, (snd tf). eexists. exact C.
  - right. apply Decode_says.dret_inv in R. destruct R as [-> ->]. destruct (fst tf) as [t|].
    + exists n, t, (snd tf), p2, p3. exact T.
    + apply Decode_says.dbind_inv in T. destruct T as (? & ? & _ & T). apply Decode_says.dret_inv in T. destruct T. discriminate.
Qed.

(** [k: v] is an entry of a mapping. *)
Fixpoint entry (k v : ynode) (l : list ynode) : Prop :=
  match l with
  | k0 :: v0 :: l' => (k0 = k /\ v0 = v) \/ entry k v l'
  | _ => False
  end.

Lemma declarations_asked inc_dt inc_ne loc put : forall l m p m' p', declarations_h H E inc_dt inc_ne loc put l m p = (Ok m', p') ->
  forall k v, entry k v l -> agreed (BeforeMakeNewShape v).
Proof.
  fix IH 1. intros [|k0 [|v0 l]] m p m' p' R k v K; [destruct K|destruct K|]. cbn [declarations_h] in R.
  apply Decode_says.dbind_inv in R. destruct R as (x & p1 & X & R). apply Decode_says.dbind_inv in R. destruct R as (? & p2 & _ & R).
  destruct K as [[-> ->]|K]; [|exact (IH l _ _ _ _ R k v K)]. exists (p_st p). exact (proj1 (shape_at_asked _ _ _ _ _ _ _ _ _ X)).
Qed.

Lemma declare_asked inc_dt inc_ne loc put v m p m' p' : declare_h H E inc_dt inc_ne loc put v m p = (Ok m', p') ->
  y_tag v <> "!!null" -> forall k w, entry k w (y_content v) -> agreed (BeforeMakeNewShape w).
Proof.
  unfold declare_h. intros R N. destruct (String.eqb_spec (y_tag v) "!!null"); [contradiction|].
  destruct (y_kind v); try discriminate. exact (declarations_asked _ _ _ _ _ _ _ _ _ R).
Qed.

Lemma lib_entries_asked inc_dt inc_ne loc : forall l b p b' p', lib_entries_h H E inc_dt inc_ne loc l b p = (Ok b', p') ->
  forall k v, entry k v l -> y_value k = "types" \/ y_value k = "annotationTypes" -> y_tag v <> "!!null" ->
  forall k' w, entry k' w (y_content v) -> agreed (BeforeMakeNewShape w).
Proof.
  fix IH 1. intros [|k0 [|v0 l]] b p b' p' R k v K; [destruct K|destruct K|]. cbn [lib_entries_h] in R.
  destruct (String.eqb_spec (y_value k0) "uses") as [e|_].
  { apply Decode_says.dbind_inv in R. destruct R as (m & p1 & X & R). destruct K as [[-> ->]|K]; [|exact (IH l _ _ _ _ R k v K)].
    intros [T|T]; rewrite e in T; discriminate. }
  destruct (String.eqb_spec (y_value k0) "types") as [e|D0].
  { apply Decode_says.dbind_inv in R. destruct R as (m & p1 & X & R). destruct K as [[-> ->]|K]; [|exact (IH l _ _ _ _ R k v K)].
    intros _ N. exact (declare_asked _ _ _ _ _ _ _ _ _ X N). }
  destruct (String.eqb_spec (y_value k0) "annotationTypes") as [e|D1].
  { apply Decode_says.dbind_inv in R. destruct R as (m & p1 & X & R). destruct K as [[-> ->]|K]; [|exact (IH l _ _ _ _ R k v K)].
    intros _ N. exact (declare_asked _ _ _ _ _ _ _ _ _ X N). }
  assert (R' : exists b1 p1, lib_entries_h H E inc_dt inc_ne loc l b1 p1 = (Ok b', p')).
  { destruct (String.eqb (y_value k0) "usage"); [apply Decode_says.dbind_inv in R; destruct R as (? & p1 & _ & R); eauto|].
    destruct (is_annotation (y_value k0)); [apply Decode_says.dbind_inv in R; destruct R as (? & p1 & _ & R); eauto|eauto]. }
  destruct R' as (b1 & p1 & R'). destruct K as [[-> ->]|K]; [|exact (IH l _ _ _ _ R' k v K)]. intros [T|T]; contradiction.
Qed.

(** The texts of the types of a library. *)
Lemma decode_lib_asked inc_dt inc_ne inc_lib text path p l p' : decode_lib_h H E inc_dt inc_ne inc_lib text path p = (Ok l, p') ->
  exists v, document E text = Ok (Some v)
  /\ forall k t, entry k t (y_content v) -> y_value k = "types" \/ y_value k = "annotationTypes" -> y_tag t <> "!!null" ->
     forall k' w, entry k' w (y_content t) -> agreed (BeforeMakeNewShape w).
Proof.
  unfold decode_lib_h. intros R. apply Decode_says.dbind_inv in R. destruct R as (o & p1 & X & R). apply Decode_says.dlift_inv in X.
  destruct X as [X ->]. destruct o as [v|]; [|discriminate]. exists v. split; [exact X|].
  apply Decode_says.dbind_inv in R. destruct R as (b & p1 & B & _). unfold unmarshal_lib_h in B. destruct (y_kind v); try discriminate.
  exact (lib_entries_asked _ _ _ _ _ _ _ _ B).
Qed.

(** The text of a data type. *)
Lemma decode_dt_asked inc_dt inc_ne inc_lib text path p a p' : decode_dt_h H E inc_dt inc_ne inc_lib text path p = (Ok a, p') ->
  exists v r, (if has_suffix ".json" path then v = json_document text else document E text = Ok (Some v))
  /\ dt_entries (y_content v) [] [] = Ok r /\ agreed (BeforeMakeNewShape (Y KMap "" "" (snd r))).
Proof.
  unfold decode_dt_h. intros R. apply Decode_says.dbind_inv in R. destruct R as (o & p1 & D & R). destruct o as [v|]; [|discriminate].
  apply Decode_says.dbind_inv in R. destruct R as (r0 & p2 & U & _). unfold unmarshal_dt_h in U. destruct (y_kind v); try discriminate.
  apply Decode_says.dbind_inv in U. destruct U as (r & p3 & L & U). apply Decode_says.dlift_inv in L. destruct L as [L _].
  apply Decode_says.dbind_inv in U. destruct U as (x & p4 & X & _). exists v, r. split; [|split; [exact L|]].
  - destruct (has_suffix ".json" path).
    + apply Decode_says.dret_inv in D. destruct D as [D _]. now injection D as ->.
    + apply Decode_says.dlift_inv in D. tauto.
  - eexists. exact (proj1 (shape_at_asked _ _ _ _ _ _ _ _ _ X)).
Qed.

(** Resolution: a type that was not known is made concrete. *)
Definition concrete_agreed (a : addr) : Prop := exists t fs, agreed (BeforeMakeConcreteShape a t fs).

Lemma concrete_yaml_asked i1 i2 a t fs p u p' : concrete_yaml_h H E i1 i2 a t fs p = (Ok u, p') -> concrete_agreed a.
Proof.
  unfold concrete_yaml_h. intros R. apply Decode_says.dbind_inv in R. destruct R as (b & p1 & _ & C). exists t, fs, (p_st p1).
  exact (concrete_asked _ _ _ _ _ _ _ _ C).
Qed.

Section See.
Variable conc : addr -> string -> option fnodes -> D unit.
Variable rec : addr -> D unit.
Hypothesis conc_asked : forall a t fs p u p', conc a t fs p = (Ok u, p') -> concrete_agreed a.

Lemma see_ref_asked name a fs p u p' : see_ref conc rec name a fs p = (Ok u, p') -> concrete_agreed a.
Proof.
  unfold see_ref. intros R. do 4 (apply Decode_says.dbind_inv in R; destruct R as (? & ? & _ & R)).
  destruct (Z.eqb _ _); [discriminate|]. do 2 (apply Decode_says.dbind_inv in R; destruct R as (? & ? & _ & R)).
  apply Decode_says.dbind_inv in R. destruct R as (? & ? & C & _). exact (conc_asked _ _ _ _ _ _ C).
Qed.

Lemma see_expr_asked : forall e a fs p u p', see_expr conc rec e a fs p = (Ok u, p') -> concrete_agreed a
with see_typ_asked : forall t a fs p u p', see_typ conc rec t a fs p = (Ok u, p') -> concrete_agreed a
with see_atom_asked : forall x a fs p u p', see_atom conc rec x a fs p = (Ok u, p') -> concrete_agreed a.
Proof.
  - intros [t|t1 t2 ts] a fs p u p' R; cbn [see_expr] in R; [exact (see_typ_asked t _ _ _ _ _ R)|].
    apply Decode_says.dbind_inv in R. destruct R as (? & ? & C & _). exact (conc_asked _ _ _ _ _ _ C).
  - intros [x|x|x] a fs p u p' R; cbn [see_typ] in R; [exact (see_atom_asked x _ _ _ _ _ R)| |];
      apply Decode_says.dbind_inv in R; destruct R as (? & ? & C & _); exact (conc_asked _ _ _ _ _ _ C).
  - intros [t|e|s o] a fs p u p' R; cbn [see_atom] in R.
    + exact (conc_asked _ _ _ _ _ _ R).
    + exact (see_expr_asked e _ _ _ _ _ R).
    + exact (see_ref_asked _ _ _ _ _ _ R).
Qed.
End See.

Lemma settle_asked m n a p u p' : settle_h H E m n a p = (Ok u, p') -> Spec_Validate.shape_at (heap (p_st p)) a SUnknown -> concrete_agreed a.
Proof.
  destruct n as [|n]; [discriminate|]. cbn [settle_h]. intros R (b & Gb & Sb).
  apply Decode_says.dbind_inv in R. destruct R as (b' & p1 & X & R). unfold hp, rd in X. rewrite Gb in X. injection X as <- <-.
  apply Decode_says.dbind_inv in R. destruct R as (p2 & p3 & _ & R). rewrite Sb in R.
  assert (K : forall a t fs p u p', concrete_yaml_h H E (parse_dt_h H E m) (parse_ne E) a t fs p = (Ok u, p') -> concrete_agreed a)
    by (intros; eapply concrete_yaml_asked; eauto).
  destruct (b_link b) as [l|].
  - apply Decode_says.dbind_inv in R. destruct R as (d & p4 & _ & R). destruct d as [ds|]; [|discriminate].
    do 2 (apply Decode_says.dbind_inv in R; destruct R as (? & ? & _ & R)). exact (K _ _ _ _ _ _ R).
  - destruct (String.eqb (b_type b) "composite").
    + do 2 (apply Decode_says.dbind_inv in R; destruct R as (? & ? & _ & R)). destruct x as [|q ps]; [discriminate|].
      apply Decode_says.dbind_inv in R. destruct R as (? & ? & _ & R). exact (K _ _ _ _ _ _ R).
    + destruct (read_type (b_type b)) as [e|]; [|discriminate]. exact (see_expr_asked _ _ K _ _ _ _ _ _ R).
Qed.

(** The rounds of resolveShapes from [p] to [p']: in each one the first type in
    the list is resolved, and no hook objected to making it concrete. *)
Inductive rounds (m n : nat) : pst -> pst -> Prop :=
| rounds_end p : p_todo p = [] -> rounds m n p p
| rounds_next p a l u p1 p2 p' : p_todo p = a :: l -> settle_h H E m n a p = (Ok u, p1) ->
    (Spec_Validate.shape_at (heap (p_st p)) a SUnknown -> concrete_agreed a) ->
    drop_todo p1 = (Ok tt, p2) -> rounds m n p2 p' -> rounds m n p p'.

Lemma settle_all_asked m n : forall k good p p', settle_all_h H E m n k good p = (Ok true, p') -> good = true /\ rounds m n p p'.
Proof.
  induction k as [|k IH]; intros good p p' R; [discriminate|]. cbn [settle_all_h] in R.
  apply Decode_says.dbind_inv in R. destruct R as (q & p1 & X & R). injection X as <- <-.
  destruct (p_todo p) as [|a l] eqn:T.
  - apply Decode_says.dret_inv in R. destruct R as [<- ->]. split; [reflexivity|]. now constructor.
  - apply Decode_says.dbind_inv in R. destruct R as (r & p1 & X & R). apply Decode_says.dbind_inv in R. destruct R as (u & p2 & D & R).
    destruct (IH _ _ _ R) as [G Rs]. destruct r as [u'|]; [|discriminate]. split; [exact G|].
    assert (X' : settle_h H E m n a p = (Ok u', p1)).
    { unfold dtry in X. destruct (settle_h H E m n a p) as [[y| | |] z]; try discriminate. now injection X as -> ->. }
    destruct u. exact (rounds_next m n p a l u' p1 p2 p' T X' (settle_asked _ _ _ _ _ _ X') D Rs).
Qed.

(** The steps of a parse. *)
Lemma parse_steps n O o1 o2 o3 text path ep p : parse_string_h H E n O o1 o2 o3 true true text path = (Ok ep, p) ->
  exists p1 p2 p3 R s3 s, decode_fragment_h H E n text path new_raml = (Ok ep, p1)
  /\ settle_all_h H E n n n true p1 = (Ok true, p2) /\ heap (p_st p3) = heap (p_st p2)
  /\ unwrap_shapes_h H n o1 o2 (raml_of p3) (p_st p3) = (Ok R, s3)
  /\ validate_shapes_h H n O o3 (raml_of (with_raml p3 s3 R)) s3 = (Ok tt, s).
Proof.
  unfold parse_string_h, parse_fragment_h. intros R. apply Decode_says.dbind_inv in R. destruct R as (ep' & p1 & D & R).
  apply Decode_says.dbind_inv in R. destruct R as (? & p3 & Rs & R). apply Decode_says.dbind_inv in R. destruct R as (? & p4 & U & R).
  apply Decode_says.dbind_inv in R. destruct R as (? & p5 & V & R). apply Decode_says.dret_inv in R. destruct R as [<- _].
  unfold resolve_fragment_h in Rs. apply Decode_says.dbind_inv in Rs. destruct Rs as (ok & p2 & S & Rs).
  apply Decode_says.dbind_inv in Rs. destruct Rs as (? & p2' & G & Rs). destruct ok; [|discriminate]. apply Decode_says.dret_inv in G. destruct G as [_ ->].
  exists p1, p2, p3. destruct (unwrap_shapes_h H n o1 o2 (raml_of p3) (p_st p3)) as [[R| | |] s3] eqn:Eu; try discriminate. injection U as _ <-.
  destruct (validate_shapes_h H n O o3 (raml_of (with_raml p3 s3 R)) (p_st (with_raml p3 s3 R))) as [r s] eqn:Ev. injection V as -> _.
  exists R, s3, s. split; [exact D|]. split; [exact S|]. split; [|split; [reflexivity|]].
  - destruct (resolve_exts (raml_of p2) (p_exts p2)) as [[good l]| | |]; try discriminate. injection Rs as _ <-. reflexivity.
  - destruct x1. exact Ev.
Qed.
End Parse.
End Hooked.
