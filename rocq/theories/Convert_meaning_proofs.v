(** Proofs: a converted type means the same in both languages. *)
From Coq Require Import ZArith List String Ascii Bool Lia.
From Coq Require Import Floats.SpecFloat.
From Verif Require Import Base Scalars Spec_Scalars Heap Heap_lemmas Spec_Validate Schema Convert Spec_Schema Convert_proofs.
From Verif Require Scalars_proofs Validate_proofs.
Import ListNotations.
Open Scope string_scope.
Open Scope list_scope.
Open Scope Z_scope.

Lemma exact_fun f a b : float_exact f a -> float_exact f b -> a = b.
Proof. intros A B. eapply Scalars_proofs.float_trunc_fun; eapply Scalars_proofs.float_exact_trunc; eauto. Qed.

Lemma denotes_exact O f z z' : float_exact f z -> int_range z -> int_denotes O (GFloat f) z' -> z' = z.
Proof.
  intros X R D. inversion D as [| |f0 z0 T R0|f0 z0 T R0|f0 T]; subst.
  - eapply Scalars_proofs.float_trunc_fun; [exact T|now apply Scalars_proofs.float_exact_trunc].
  - exfalso. apply R0. rewrite (Scalars_proofs.float_trunc_fun _ _ _ T (Scalars_proofs.float_exact_trunc _ _ X)). exact R.
  - exfalso. apply (T z). now apply Scalars_proofs.float_exact_trunc.
Qed.

(** * Leaves *)

Definition plain_kw (k : kw) : Prop :=
  k_ref k = "" /\ k_minitems k = None /\ k_maxitems k = None /\ k_uniq k = None
  /\ k_minprops k = None /\ k_maxprops k = None /\ k_required k = [] /\ k_addl k = None.

Lemma leaf_plain sh b k : leaf_kw sh (meta b) = Some k -> plain_kw k.
Proof.
  destruct sh as [| |f|f|f|f|e|f| | | |f|f|sl e|raw| |hd]; simpl; intros H; try discriminate;
    try solve [injection H as <-; repeat split].
  - injection H as <-. destruct (sf_pat f); repeat split.
  - destruct (ff_types f) as [[|[] ?]|]; try discriminate; injection H as <-; repeat split.
  - injection H as <-. destruct f as [x|]; [|repeat split]. destruct (String.eqb x "rfc3339"); [repeat split|].
    destruct (String.eqb x "rfc2616"); repeat split.
Qed.

(** Keywords of a string type. *)
Lemma string_keywords O F e lo hi pat fmt k v : k_type k = "string" -> k_enum k = e -> k_const k = GNil ->
  k_minlen k = lo -> k_maxlen k = hi -> k_pattern k = pat -> k_format k = fmt ->
  (scalar_keywords O F k v <-> exists s, v = GStr s
     /\ (forall l, e = Some l -> l <> [] -> In (GStr s) l)
     /\ at_least lo (code_points s) /\ at_most hi (code_points s)
     /\ (pat <> "" -> o_match O pat s = true) /\ (fmt <> "" -> F fmt s = true)).
Proof.
  intros T En K Lo Hi Pa Fm. unfold scalar_keywords. rewrite T, En, K, Lo, Hi, Pa, Fm. split.
  - intros (A & B & _ & _ & C0). assert (Ty : has_type "string" v) by (apply A; discriminate). inversion Ty; subst. clear Ty.
    exists s. split; auto. split; [|now apply C0].
    intros l L N. destruct (B l L N) as (x & I & J). inversion J; subst. exact I.
  - intros (s & -> & A & B & C0 & D & G). split; [constructor|]. split; [|split; [congruence|split; [discriminate|]]].
    + intros l L N. exists (GStr s). split; [auto|constructor].
    + intros s' S'. injection S' as <-. auto.
Qed.

Lemma leaf_meaning O F h P sh b k v : leaf_kw sh (meta b) = Some k -> same_meaning O F h sh -> json_value v ->
  (counts_characters sh -> forall s, v = GStr s -> code_points s = Z.of_nat (String.length s)) ->
  (forall f, sh = SInt f -> forall g, v = GFloat g -> exists z, float_exact g z /\ int_range z) ->
  (shape_accepts O h P sh v <-> scalar_keywords O F k v).
Proof.
  intros K M J CC II.
  destruct sh as [| |f|f|f|f|e|f| | | |f|f|sl e|raw| |hd]; simpl in K; try discriminate; try (injection K as <-).
  - (* any *)
    split; auto. intros _. unfold scalar_keywords. simpl. split; [congruence|]. split; [discriminate|]. split; [congruence|].
    split; [intros; repeat split; discriminate|]. intros s _. repeat split; try congruence; intros m; discriminate.
  - (* nil *)
    simpl. unfold scalar_keywords. simpl. split.
    + intros ->. split; [intros _; constructor|]. split; [discriminate|]. split; [congruence|]. split; discriminate.
    + intros (A & _). assert (Ty : has_type "null" v) by (apply A; discriminate). now inversion Ty.
  - (* integer *)
    destruct M as [Mu Me]. simpl. unfold int_accepts, scalar_keywords. simpl. rewrite Mu. simpl. split.
    + intros (z & D & Lo & Hi & En).
      assert (Fv : exists g, v = GFloat g) by (inversion J; subst; inversion D; subst; eauto).
      destruct Fv as [g ->]. destruct (II f eq_refl g eq_refl) as (z0 & X & R). pose proof (denotes_exact _ _ _ _ X R D) as ->.
      split; [intros _; econstructor; eauto|]. split; [|split; [congruence|split; [|discriminate]]].
      * intros l L N. exists (GInt z0). destruct (En l L) as [[_ I]|[NR _]]; [|contradiction]. split; auto. now constructor.
      * intros g' G'. injection G' as <-. split; [|split; [|discriminate]].
        -- intros bd B. destruct (if_min f) as [m|] eqn:Em; [|discriminate]. injection B as <-. exists z0. split; auto.
        -- intros bd B. destruct (if_max f) as [m|] eqn:Em; [|discriminate]. injection B as <-. exists z0. split; auto.
    + intros (Ty & En & _ & Bd & _). assert (T : has_type "integer" v) by (apply Ty; discriminate). inversion T as [| | | |g z X| |]; subst.
      destruct (II f eq_refl g eq_refl) as (z0 & X0 & R). pose proof (exact_fun _ _ _ X X0) as ->.
      destruct (Bd g eq_refl) as (Lo & Hi & _). exists z0.
      split; [apply id_float; [now apply Scalars_proofs.float_exact_trunc|auto]|].
      split; [|split].
      * intros m Em. destruct (Lo (NumZ m)) as (z1 & X1 & L1); [now rewrite Em|]. now rewrite (exact_fun _ _ _ X0 X1).
      * intros m Em. destruct (Hi (NumZ m)) as (z1 & X1 & L1); [now rewrite Em|]. now rewrite (exact_fun _ _ _ X0 X1).
      * intros l L. left. split; auto. destruct (Me l L) as [N I]. destruct (En l L N) as (x & Ix & Jx).
        destruct (I x Ix) as (z1 & ->). inversion Jx; subst. match goal with H : float_exact g z1 |- _ => now rewrite (exact_fun _ _ _ X0 H) end.
  - (* number *)
    destruct M as [Mu Me]. simpl. unfold num_accepts, scalar_keywords. simpl. rewrite Mu. simpl. split.
    + intros (g & D & Lo & Hi & En).
      assert (Fv : v = GFloat g) by (inversion J; subst; inversion D; subst; eauto). subst v.
      split; [intros _; constructor|]. split; [|split; [congruence|split; [|discriminate]]].
      * intros l L N. destruct (En l L) as (x & I & Q). exists (GFloat x). split; auto. now constructor.
      * intros g' G'. injection G' as <-. split; [|split; [|discriminate]].
        -- intros bd B. destruct (nf_min f) as [m|] eqn:Em; [|discriminate]. injection B as <-. now apply Lo.
        -- intros bd B. destruct (nf_max f) as [m|] eqn:Em; [|discriminate]. injection B as <-. now apply Hi.
    + intros (Ty & En & _ & Bd & _). assert (T : has_type "number" v) by (apply Ty; discriminate). inversion T as [| | |g| | |]; subst.
      destruct (Bd g eq_refl) as (Lo & Hi & _). exists g. split; [constructor|]. split; [|split].
      * intros m Em. apply (Lo (NumF m)). now rewrite Em.
      * intros m Em. apply (Hi (NumF m)). now rewrite Em.
      * intros l L. destruct (Me l L) as [N I]. destruct (En l L N) as (x & Ix & Jx). destruct (I x Ix) as (y & ->).
        exists y. split; auto. now inversion Jx.
  - (* string *)
    destruct M as [Mp Me]. rewrite (string_keywords O F (sf_enum f) (sf_min f) (sf_max f)
      (match sf_pat f with Some p => p | None => "" end) "") by (destruct (sf_pat f); reflexivity).
    simpl. unfold str_accepts.
    assert (Len : forall s, v = GStr s -> (at_least (sf_min f) (code_points s) <-> at_least (sf_min f) (Z.of_nat (String.length s)))
       /\ (at_most (sf_max f) (code_points s) <-> at_most (sf_max f) (Z.of_nat (String.length s)))).
    { intros s Vs. unfold at_least, at_most.
      assert (CC' : sf_min f <> None \/ sf_max f <> None -> forall s, v = GStr s -> code_points s = Z.of_nat (String.length s)) by exact CC.
      assert (C1 : sf_min f <> None -> code_points s = Z.of_nat (String.length s)) by (intros; apply CC'; auto).
      assert (C2 : sf_max f <> None -> code_points s = Z.of_nat (String.length s)) by (intros; apply CC'; auto).
      destruct (sf_min f) as [lo|] in *.
      - rewrite C1 by discriminate. split; split; intros X; exact X.
      - destruct (sf_max f) as [hi|] in *; [rewrite C2 by discriminate; split; split; intros X; exact X|].
        split; (split; [intros _ m; discriminate|intros _ m; discriminate]). }
    split; intros (s & Vs & A); exists s; (split; [exact Vs|]); destruct (Len s Vs) as [L1 L2].
    + destruct A as (A1 & A2 & A3 & A4). split; [intros l L _; exact (A4 l L)|]. split; [tauto|]. split; [tauto|].
      split; [|congruence]. intros N. destruct (sf_pat f) as [p|]; [now apply A3|congruence].
    + destruct A as (A1 & A2 & A3 & A4 & _). split; [tauto|]. split; [tauto|]. split.
      * intros p Pp. rewrite Pp in A4, Mp. apply A4. congruence.
      * intros l L. apply (A1 l L). congruence.
  - (* file *)
    assert (KK : exists m, k = with_content "base64" m (with_length (ff_min f) (ff_max f) (with_type "string" (meta b)))).
    { destruct (ff_types f) as [[|[] ?]|]; try discriminate; injection K as <-; eauto. }
    destruct KK as [m ->]. rewrite (string_keywords O F None (ff_min f) (ff_max f) "" "") by reflexivity.
    simpl. unfold file_accepts.
    assert (Len : forall s, v = GStr s -> (at_least (ff_min f) (code_points s) <-> at_least (ff_min f) (Z.of_nat (String.length s)))
       /\ (at_most (ff_max f) (code_points s) <-> at_most (ff_max f) (Z.of_nat (String.length s)))).
    { intros s Vs. unfold at_least, at_most.
      assert (CC' : ff_min f <> None \/ ff_max f <> None -> forall s, v = GStr s -> code_points s = Z.of_nat (String.length s)) by exact CC.
      assert (C1 : ff_min f <> None -> code_points s = Z.of_nat (String.length s)) by (intros; apply CC'; auto).
      assert (C2 : ff_max f <> None -> code_points s = Z.of_nat (String.length s)) by (intros; apply CC'; auto).
      destruct (ff_min f) as [lo|] in *.
      - rewrite C1 by discriminate. split; split; intros X; exact X.
      - destruct (ff_max f) as [hi|] in *; [rewrite C2 by discriminate; split; split; intros X; exact X|].
        split; (split; [intros _ n; discriminate|intros _ n; discriminate]). }
    split; intros (s & Vs & A); exists s; (split; [exact Vs|]); destruct (Len s Vs) as [L1 L2].
    + destruct A as (A1 & A2). split; [discriminate|]. split; [tauto|]. split; [tauto|]. split; congruence.
    + destruct A as (_ & A1 & A2 & _). tauto.
  - (* boolean *)
    simpl. unfold bool_accepts, scalar_keywords. simpl. simpl in M. split.
    + intros (c & -> & En). split; [intros _; constructor|]. split; [|split; [congruence|split; discriminate]].
      intros l L N. exists (GBool c). split; [auto|constructor].
    + intros (Ty & En & _). assert (T : has_type "boolean" v) by (apply Ty; discriminate). inversion T; subst. exists b0. split; auto.
      intros l L. destruct (En l L) as (x & I & Q); [congruence|]. inversion Q; subst. exact I.
  - (* datetime *)
    assert (Gen : forall pat fmt k', (forall b0, k_type (k' b0) = "string" /\ k_enum (k' b0) = None /\ k_const (k' b0) = GNil /\ k_minlen (k' b0) = None
        /\ k_maxlen (k' b0) = None /\ k_pattern (k' b0) = pat /\ k_format (k' b0) = fmt) ->
       (forall s, ((pat <> "" -> o_match O pat s = true) /\ (fmt <> "" -> F fmt s = true)) <-> (forall l, datetime_layout f l -> o_time O l s = true)) ->
       (shape_accepts O h P (SDateTime f) v <-> scalar_keywords O F (k' b) v)).
    { intros pat fmt k' Kk Q. destruct (Kk b) as (K1 & K2 & K3 & K4 & K5 & K6 & K7).
      rewrite (string_keywords O F None None None pat fmt (k' b)) by assumption. simpl. unfold datetime_accepts.
      split; intros (s & Vs & A); exists s; (split; [exact Vs|]).
      - apply Q in A. split; [discriminate|]. split; [intros n; discriminate|]. split; [intros n; discriminate|]. exact A.
      - destruct A as (_ & _ & _ & A). now apply Q. }
    destruct f as [x|].
    + destruct (String.eqb x "rfc3339") eqn:E1.
      { apply String.eqb_eq in E1. subst x. apply (Gen "" "date-time" (fun b => with_format "date-time" (with_type "string" (meta b)))).
        - intros b0. repeat split.
        - intros s. simpl in M. split.
          + intros [_ A] l L. inversion L; subst. rewrite <- M. apply A. discriminate.
          + intros A. split; [congruence|]. intros _. rewrite M. apply A. constructor. }
      destruct (String.eqb x "rfc2616") eqn:E2.
      { apply String.eqb_eq in E2. subst x. apply (Gen pattern_2616 "" (fun b => with_pattern pattern_2616 (with_type "string" (meta b)))).
        - intros b0. repeat split.
        - intros s. simpl in M. split.
          + intros [A _] l L. inversion L; subst. rewrite <- M. apply A. discriminate.
          + intros A. split; [|congruence]. intros _. unfold pattern_2616. rewrite M. apply A. constructor. }
      apply (Gen "" "" (fun b => with_type "string" (meta b))).
      * intros b0. repeat split.
      * intros s. split; [|intros _; split; congruence]. intros _ l L. inversion L; subst; discriminate.
    + apply (Gen "" "date-time" (fun b => with_format "date-time" (with_type "string" (meta b)))).
      * intros b0. repeat split.
      * intros s. simpl in M. split.
        -- intros [_ A] l L. inversion L; subst. rewrite <- M. apply A. discriminate.
        -- intros A. split; [congruence|]. intros _. rewrite M. apply A. constructor.
  - (* datetime-only *)
    rewrite (string_keywords O F None None None pattern_datetime_only "") by reflexivity. simpl in M. simpl. unfold layout_accepts.
    split; intros (s & Vs & A); exists s; (split; [exact Vs|]).
    + split; [discriminate|]. split; [intros n; discriminate|]. split; [intros n; discriminate|]. split; [|congruence].
      intros _. unfold pattern_datetime_only. now rewrite M.
    + destruct A as (_ & _ & _ & A & _). rewrite <- M. apply A. discriminate.
  - (* date-only *)
    rewrite (string_keywords O F None None None "" "date") by reflexivity. simpl in M. simpl. unfold layout_accepts.
    split; intros (s & Vs & A); exists s; (split; [exact Vs|]).
    + split; [discriminate|]. split; [intros n; discriminate|]. split; [intros n; discriminate|]. split; [congruence|].
      intros _. now rewrite M.
    + destruct A as (_ & _ & _ & _ & A). rewrite <- M. apply A. discriminate.
  - (* time-only *)
    rewrite (string_keywords O F None None None "" "time") by reflexivity. simpl in M. simpl. unfold layout_accepts.
    split; intros (s & Vs & A); exists s; (split; [exact Vs|]).
    + split; [discriminate|]. split; [intros n; discriminate|]. split; [intros n; discriminate|]. split; [congruence|].
      intros _. now rewrite M.
    + destruct A as (_ & _ & _ & _ & A). rewrite <- M. apply A. discriminate.
Qed.

(** * Structure *)

Lemma props_fun h o l l' : props_of h o l -> props_of h o l' -> l = l'.
Proof. intros [[-> ->]|(m & -> & A)] [[E' ->]|(m' & E' & B)]; try congruence. Qed.

Lemma oget_some_in {A} n (l : omap A) x : oget n l = Some x -> In (n, x) l.
Proof.
  induction l as [|[k y] l IH]; simpl; [discriminate|]. destruct (String.eqb n k) eqn:K; [|auto].
  apply String.eqb_eq in K. intros H. injection H as <-. subst. now left.
Qed.
Lemma oget_none_out {A} n (l : omap A) x : oget n l = None -> ~ In (n, x) l.
Proof.
  induction l as [|[k y] l IH]; simpl; [tauto|]. destruct (String.eqb n k) eqn:K; [discriminate|].
  intros N [I|I]; [|exact (IH N I)]. inversion I; subst. rewrite String.eqb_refl in K. discriminate.
Qed.
Lemma oget_nodup {A} n (l : omap A) x : NoDup (map fst l) -> In (n, x) l -> oget n l = Some x.
Proof.
  induction l as [|[k y] l IH]; simpl; [tauto|]. intros ND [I|I]; inversion ND as [|? ? N1 N2]; subst.
  - inversion I; subst. now rewrite String.eqb_refl.
  - destruct (String.eqb n k) eqn:K; [|auto]. apply String.eqb_eq in K. subst. destruct N1.
    apply in_map_iff. now exists (k, x).
Qed.

Lemma forall2_oget (R : prop -> schema -> Prop) l ls n : Forall2 (fun kp ks => fst kp = fst ks /\ R (snd kp) (snd ks)) l ls ->
  match oget n l, oget n ls with Some p, Some t => R p t | None, None => True | _, _ => False end.
Proof.
  induction 1 as [|[k p] [k' t] l ls [E' Rr] F IH]; simpl; auto. simpl in E', Rr. subst k'. destruct (String.eqb n k); auto.
Qed.

Lemma unslash_slashes q : unslash ("/" ++ q ++ "/") = Some q.
Proof.
  unfold unslash.
  assert (L : String.length (q ++ "/") = Datatypes.S (String.length q)).
  { clear. induction q as [|c q IH]; simpl; congruence. }
  assert (B : Z.ltb (blen ("/" ++ q ++ "/")) 2 = false).
  { apply Z.ltb_ge. unfold blen. simpl String.length. rewrite L. lia. }
  rewrite B. f_equal. simpl String.length. rewrite L.
  replace (Datatypes.S (Datatypes.S (String.length q)) - 2)%nat with (String.length q) by lia. simpl substring.
  clear. induction q as [|c q IH]; simpl; [reflexivity|]. now rewrite IH.
Qed.

Lemma def_ref_inj m n : def_ref m = def_ref n -> m = n.
Proof. unfold def_ref. simpl. intros H. injection H. auto. Qed.
Lemma def_ref_not_empty n : def_ref n <> "".
Proof. discriminate. Qed.

Lemma meta_keywords O F b v : scalar_keywords O F (meta b) v.
Proof.
  unfold scalar_keywords. simpl. split; [congruence|]. split; [discriminate|]. split; [congruence|].
  split; [intros; repeat split; discriminate|]. intros s _. repeat split; try congruence; intros m; discriminate.
Qed.

Lemma type_keywords O F k t v : k_type k = t -> t <> "" -> k_enum k = None -> k_const k = GNil ->
  k_min k = None -> k_max k = None -> k_mult k = None -> k_minlen k = None -> k_maxlen k = None ->
  k_pattern k = "" -> k_format k = "" -> (scalar_keywords O F k v <-> has_type t v).
Proof.
  intros T N En K A B C0 D G P Q. unfold scalar_keywords. rewrite T, En, K, A, B, C0, D, G, P, Q. split.
  - intros (H & _). auto.
  - intros H. split; auto. split; [discriminate|]. split; [congruence|]. split; [intros; repeat split; discriminate|].
    intros s _. repeat split; try congruence; intros m; discriminate.
Qed.

Lemma Forall2_in_l {A B} (R : A -> B -> Prop) l l' : Forall2 R l l' -> forall x, In x l -> exists y, In y l' /\ R x y.
Proof. induction 1 as [|a b l l' H F IH]; intros x []; [subst; exists b; split; [now left|auto]|]. destruct (IH x H0) as (y & I & Q). exists y. split; [now right|auto]. Qed.
Lemma Forall2_in_r {A B} (R : A -> B -> Prop) l l' : Forall2 R l l' -> forall y, In y l' -> exists x, In x l /\ R x y.
Proof. induction 1 as [|a b l l' H F IH]; intros y []; [subst; exists a; split; [now left|auto]|]. destruct (IH y H0) as (x & I & Q). exists x. split; [now right|auto]. Qed.

Section Meaning.
Variable O : oracle.
Variable F : string -> string -> bool.

Lemma sstep_mono D (P Q : schema -> gval -> Prop) s v : (forall t w, P t w -> Q t w) -> sstep O F D P s v -> sstep O F D Q s v.
Proof.
  intros PQ. destruct s as [|k ds al an on nt it th el its ps pps pn aa ff xx]; [auto|]. simpl.
  destruct (negb (String.eqb (k_ref k) "")).
  - intros (n & t & A & B & C0). exists n, t. auto.
  - intros (A & B & C0 & D0 & G & Rest). split; auto. split; [auto|]. split; [|split; [|split; [|exact Rest]]].
    + intros N. destruct (C0 N) as (t & I & Pt). exists t. auto.
    + intros l L. destruct (D0 l L) as (D1 & D2 & D3 & D4). repeat (split; auto); try (apply D3; assumption).
    + intros kvs L. destruct (G kvs L) as (G1 & G2 & G3 & G4). split; auto. split; auto. split; auto.
      intros n x I. destruct (G4 n x I) as (H1 & H2 & H3). split; [eauto|]. split; [eauto|auto].
Qed.
Lemma satisfies_fold D s v : sstep O F D (satisfies O F D) s v -> satisfies O F D s v.
Proof.
  intros H P HP. apply HP. eapply sstep_mono; [|exact H]. intros t w S0. now apply S0.
Qed.
Lemma satisfies_unfold D s v : satisfies O F D s v -> sstep O F D (satisfies O F D) s v.
Proof.
  intros H. apply (H (sstep O F D (satisfies O F D))). intros t w X. eapply sstep_mono; [|exact X].
  intros. now apply satisfies_fold.
Qed.

Lemma sstep_node D P k an its ps pps x v : k_ref k = "" ->
  (sstep O F D P (node_with k an its ps pps x) v <->
   scalar_keywords O F k v
   /\ (an <> [] -> exists t, In t an /\ P t v)
   /\ (forall l, v = GArr l ->
         at_least (k_minitems k) (Z.of_nat (List.length l))
         /\ at_most (k_maxitems k) (Z.of_nat (List.length l))
         /\ (k_uniq k = Some true -> encodable O l /\ distinct_json O l)
         /\ (its <> Null -> forall x, In x l -> P its x))
   /\ (forall kvs, v = GMap kvs ->
         at_least (k_minprops k) (Z.of_nat (List.length kvs))
         /\ at_most (k_maxprops k) (Z.of_nat (List.length kvs))
         /\ (forall n, In n (k_required k) -> exists x, In (n, x) kvs)
         /\ (forall n x, In (n, x) kvs ->
               (forall t, oget n (entries ps) = Some t -> P t x)
               /\ (forall q t, In (q, t) (entries pps) -> o_match O q n = true -> P t x)
               /\ (k_addl k = Some false ->
                     oget n (entries ps) <> None
                     \/ exists q t, In (q, t) (entries pps) /\ o_match O q n = true)))).
Proof.
  intros R. unfold node_with. simpl. rewrite R. simpl. split.
  - intros (A & _ & B & C0 & D0 & _). auto.
  - intros (A & B & C0 & D0). split; auto. split; [intros t []|]. split; auto. split; auto. split; auto. repeat split.
Qed.

(** Only keywords without sub-schemas. *)
Lemma sstep_plain D P k x v : plain_kw k -> (sstep O F D P (node_with k [] Null None None x) v <-> scalar_keywords O F k v).
Proof.
  intros (R & A1 & A2 & A3 & A4 & A5 & A6 & A7). rewrite sstep_node by exact R. split; [now intros [H _]|].
  intros H. split; auto. split; [congruence|]. rewrite A1, A2, A3, A4, A5, A6, A7. split.
  - intros l _. repeat split; try discriminate; try congruence.
  - intros kvs _. repeat split; try discriminate; try congruence. + intros n []. + intros q t [].
Qed.

Variable E : cenv.
Variable a0 : addr.
Variable D : omap schema.
Let h := c_heap E.
Hypothesis same : forall x sh, occurs h a0 x -> shape_at h x sh -> same_meaning O F h sh.
Hypothesis cl : forall x sh, occurs h a0 x -> shape_at h x sh -> closed_shape h sh.
Hypothesis heads : forall r hd hb t, occurs h a0 r -> shape_at h r (SRec hd) -> get_base h hd = Some hb ->
  oget (b_name hb) D = Some t -> mirrors E hd t /\ refs_ok t D.

Lemma shape_fun a sh sh' : shape_at h a sh -> shape_at h a sh' -> sh = sh'.
Proof. intros (b & A & B) (b' & A' & B'). congruence. Qed.

Definition vok (v : gval) : Prop := json_value v /\ fits_types h a0 v.
Lemma vok_arr l x : vok (GArr l) -> In x l -> vok x.
Proof.
  intros [J [A B]] I. split; [inversion J; subst; auto|]. split.
  - destruct A as [A|A]; [now left|]. right. inversion A as [|l' H| |v' _ N _]; subst; auto. congruence.
  - destruct B as [B|B]; [now left|]. right. inversion B as [|l' H| |v' _ N _]; subst; auto. congruence.
Qed.
Lemma vok_map l k x : vok (GMap l) -> In (k, x) l -> vok x.
Proof.
  intros [J [A B]] I. split; [inversion J; subst; eauto|]. split.
  - destruct A as [A|A]; [now left|]. right. inversion A as [| |l' H|v' _ _ N]; subst; eauto. congruence.
  - destruct B as [B|B]; [now left|]. right. inversion B as [| |l' H|v' _ _ N]; subst; eauto. congruence.
Qed.

Lemma leaf_ok P a b sh k v : occurs h a0 a -> get_base h a = Some b -> b_shape b = Some sh -> leaf_kw sh (meta b) = Some k -> vok v ->
  (shape_accepts O h P sh v <-> scalar_keywords O F k v).
Proof.
  intros Oc G Sh K [J [A B]]. assert (Sa : shape_at h a sh) by (exists b; auto).
  apply (leaf_meaning O F h P sh b k v K (same a sh Oc Sa) J).
  - intros CC s ->. destruct A as [A|A]; [destruct (A a sh Oc Sa CC)|]. inversion A as [s' H| | |v' N _ _]; subst; [exact H|destruct (N _ eq_refl)].
  - intros f -> g ->. destruct B as [B|B]; [destruct (B a f Oc Sa)|]. inversion B as [f' z X R| | |v' N _ _]; subst; [eauto|destruct (N _ eq_refl)].
Qed.

Lemma refs_below s t d : refs_ok s d -> In t (below_schema s) -> refs_ok t d.
Proof. intros R I r X. apply R. apply refers_iff. split; [apply X|]. right. eauto. Qed.

Lemma mirrors_not_null a s sh : mirrors E a s -> shape_at h a sh -> sh <> SUnknown -> s <> Null.
Proof.
  intros M (b & G & Sh) N. destruct M; try discriminate; auto.
  fold h in H. assert (b0 = b) by congruence. subst. destruct H0; congruence.
Qed.

Lemma occ_child a sh c : occurs h a0 a -> shape_at h a sh -> (forall hd, sh <> SRec hd) -> child h sh c -> occurs h a0 c.
Proof. intros. eapply oc_visit; [eauto|]. eapply vi_child; eauto. Qed.

Lemma array_type v : has_type "array" v <-> exists l, v = GArr l.
Proof. split; [intros H; inversion H; eauto|intros [l ->]; constructor]. Qed.
Lemma object_type v : has_type "object" v <-> exists l, v = GMap l.
Proof. split; [intros H; inversion H; eauto|intros [l ->]; constructor]. Qed.

Lemma ref_target r hd hb : occurs h a0 r -> shape_at h r (SRec hd) -> get_base h hd = Some hb ->
  refs_ok (leaf (with_ref (def_ref (b_name hb)) kw0)) D ->
  exists t, oget (b_name hb) D = Some t /\ mirrors E hd t /\ refs_ok t D.
Proof.
  intros Oc Sh G R. destruct (R (def_ref (b_name hb))) as (n & N & Dn).
  { apply refers_iff. split; [apply def_ref_not_empty|now left]. }
  apply def_ref_inj in N. subst n. destruct (oget (b_name hb) D) as [t|] eqn:T; [|congruence]. exists t. split; auto.
  eapply heads; eauto.
Qed.

Lemma in_required n l : In n (required_names l) <-> exists p, In (n, p) l /\ p_req p = true.
Proof.
  unfold required_names. rewrite in_map_iff. split.
  - intros ([k p] & <- & I). apply filter_In in I. exists p. exact I.
  - intros (p & I & R). exists (n, p). split; auto. apply filter_In. auto.
Qed.

Lemma below_prop k an its ps pps x n t : oget n (entries ps) = Some t -> In t (below_schema (node_with k an its ps pps x)).
Proof.
  intros G. unfold node_with, below_schema. rewrite !in_app_iff. do 5 right. left. apply in_map_iff. exists (n, t). split; auto.
  now apply oget_some_in.
Qed.
Lemma below_pprop k an its ps pps x n t : In (n, t) (entries pps) -> In t (below_schema (node_with k an its ps pps x)).
Proof. intros G. unfold node_with, below_schema. rewrite !in_app_iff. do 6 right. left. apply in_map_iff. exists (n, t). auto. Qed.
Lemma below_items k an its ps pps x : In its (below_schema (node_with k an its ps pps x)).
Proof. unfold node_with, below_schema. rewrite !in_app_iff. simpl. tauto. Qed.
Lemma below_any k an its ps pps x t : In t an -> In t (below_schema (node_with k an its ps pps x)).
Proof. unfold node_with, below_schema. rewrite !in_app_iff. tauto. Qed.

Theorem valid_satisfies a v : valid O h a v -> forall s, occurs h a0 a -> mirrors E a s -> refs_ok s D -> vok v -> satisfies O F D s v.
Proof.
  intros V. apply (V (fun a v => forall s, occurs h a0 a -> mirrors E a s -> refs_ok s D -> vok v -> satisfies O F D s v)).
  clear a v V. intros a v (sh & Sh & A) s Oc M R V. apply satisfies_fold.
  pose proof (same _ _ Oc Sh) as SM.
  destruct M as [a b sh' k x G Sb K|a b f si x G Sb Hi|a b f l ls pl pls x G Sb L PL N1 N2 F2 Pq Pk|a b sl e l ms x G Sb Gl F2|a hd hb Sr Gh|a raw s Sr N|a b G Sb];
    try fold h in G; try fold h in L; try fold h in PL; try fold h in Gl; try fold h in Sr; try fold h in Gh.
  - assert (sh = sh') by (eapply shape_fun; [exact Sh|exists b; auto]). subst sh'.
    apply sstep_plain; [eapply leaf_plain; eauto|]. eapply leaf_ok in A; eauto.
  - assert (sh = SArray f) by (eapply shape_fun; [exact Sh|exists b; auto]). subst sh.
    destruct A as (l & -> & Lo & Hx & It & Un). apply sstep_node; [reflexivity|]. split; [|split; [congruence|split; [|discriminate]]].
    + apply (type_keywords O F _ "array"); try reflexivity; [discriminate|]. constructor.
    + intros l' L'. injection L' as <-. split; [exact Lo|]. split; [exact Hx|]. split; [exact Un|].
      intros Nn y I. destruct Hi as [[_ ->]|(i & Ia & Mi)]; [congruence|].
      apply (It i y Ia I si); auto.
      * eapply occ_child; [exact Oc|exact Sh|discriminate|now constructor].
      * eapply refs_below; [exact R|apply below_items].
      * eapply vok_arr; eauto.
  - assert (sh = SObject f) by (eapply shape_fun; [exact Sh|exists b; auto]). subst sh.
    destruct A as (kvs & ps' & pps' & -> & L' & PL' & Lo & Hx & Rq & Ex & Ad).
    pose proof (props_fun _ _ _ _ L' L). pose proof (props_fun _ _ _ _ PL' PL). subst ps' pps'. clear L' PL'.
    destruct SM as [SM1 SM2]. destruct (SM2 l pl L PL) as (ND1 & ND2 & Sl & Ov). clear SM2.
    apply sstep_node; [reflexivity|]. split; [|split; [congruence|split; [discriminate|]]].
    + apply (type_keywords O F _ "object"); try reflexivity; [discriminate|]. constructor.
    + intros kvs' K'. injection K' as <-. split; [exact Lo|]. split; [exact Hx|]. split.
      * simpl. intros n I. apply in_required in I. destruct I as (p & I & Rp). eapply Rq; eauto.
      * intros n y I. pose proof (forall2_oget (fun p t => mirrors E (p_base p) t) _ _ n F2) as FO. split; [|split].
        -- intros t T. rewrite T in FO. destruct (oget n l) as [p|] eqn:Lp; [|contradiction].
           apply (Ex n y p I Lp t); auto.
           ++ eapply occ_child; [exact Oc|exact Sh|discriminate|]. eapply ch_prop; [exact L|]. apply oget_some_in. exact Lp.
           ++ eapply refs_below; [exact R|]. eapply below_prop; eauto.
           ++ eapply vok_map; eauto.
        -- intros q t It Om. destruct (Pq q t It) as (k & p & Ip & Uq & Mp). pose proof (Sl k p Ip) as ->.
           rewrite unslash_slashes in Uq. injection Uq as <-. destruct (Ov n _ p Ip Om) as [Nl Uq].
           destruct (Ad n y I Nl) as [_ [Nm|(k' & p' & Ip' & Om' & Pp)]]; [rewrite (Nm _ _ Ip) in Om; discriminate|].
           pose proof (Uq _ _ Ip' Om') as Eq. inversion Eq; subst.
           apply (Pp t); auto.
           ++ eapply occ_child; [exact Oc|exact Sh|discriminate|]. eapply ch_pprop; [exact PL|exact Ip].
           ++ eapply refs_below; [exact R|]. eapply below_pprop; eauto.
           ++ eapply vok_map; eauto.
        -- simpl. intros Af. left. destruct (oget n l) as [p|] eqn:Lp.
           ++ destruct (oget n (entries ls)); [discriminate|contradiction].
           ++ destruct (Ad n y I Lp) as [Na _]. contradiction.
  - assert (sh = SUnion sl e) by (eapply shape_fun; [exact Sh|exists b; auto]). subst sh.
    destruct A as (l' & m & Gl' & I & Pm). assert (l' = l) by congruence. subst l'.
    apply sstep_node; [reflexivity|]. split; [apply meta_keywords|]. split; [|split].
    + intros _. destruct (Forall2_in_l _ _ _ F2 m I) as (t & It & Mt). exists t. split; auto.
      apply (Pm t); auto.
      * eapply occ_child; [exact Oc|exact Sh|discriminate|]. eapply ch_member; eauto.
      * eapply refs_below; [exact R|]. now apply below_any.
    + intros l' ->. repeat split; try congruence; try discriminate; intros z; discriminate.
    + intros kvs ->. split; [intros z; discriminate|]. split; [intros z; discriminate|]. split; [intros n []|].
      intros n y _. repeat split; try discriminate. intros q t [].
  - assert (sh = SRec hd) by (eapply shape_fun; eauto). subst sh. simpl in A.
    destruct (ref_target _ _ _ Oc Sh Gh R) as (t & T & Mt & Rt).
    simpl. exists (b_name hb), t. split; auto. split; auto. apply A; auto. eapply oc_head; eauto.
  - assert (sh = SJSON raw) by (eapply shape_fun; eauto). subst sh. destruct SM.
  - destruct Sh as (b' & G' & Sb'). assert (b' = b) by congruence. subst b'. destruct Sb as [Sb|Sb]; [|congruence].
    assert (sh = SUnknown) by congruence. subst. destruct SM.
Qed.

Theorem satisfies_valid s v : satisfies O F D s v -> forall a, occurs h a0 a -> mirrors E a s -> refs_ok s D -> vok v -> valid O h a v.
Proof.
  intros V. apply (V (fun s v => forall a, occurs h a0 a -> mirrors E a s -> refs_ok s D -> vok v -> valid O h a v)).
  clear s v V. intros s v A a Oc M R V. apply (proj2 (Validate_proofs.valid_iff O h a v)).
  destruct M as [a b sh k x G Sb K|a b f si x G Sb Hi|a b f l ls pl pls x G Sb L PL N1 N2 F2 Pq Pk|a b sl e l ms x G Sb Gl F2|a hd hb Sr Gh|a raw s Sr N|a b G Sb];
    try fold h in G; try fold h in L; try fold h in PL; try fold h in Gl; try fold h in Sr; try fold h in Gh.
  - exists sh. split; [exists b; auto|]. apply sstep_plain in A; [|eapply leaf_plain; eauto].
    apply (proj2 (leaf_ok (valid O h) a b sh k v Oc G Sb K V) A).
  - assert (Sh : shape_at h a (SArray f)) by (exists b; auto). exists (SArray f). split; auto.
    apply sstep_node in A; [|reflexivity]. destruct A as (Ty & _ & Ar & _).
    apply (type_keywords O F _ "array") in Ty; try reflexivity; [|discriminate]. apply array_type in Ty. destruct Ty as [l ->].
    destruct (Ar l eq_refl) as (Lo & Hx & Un & It). exists l. split; auto. split; [exact Lo|]. split; [exact Hx|]. split; [|exact Un].
    intros i y Ia I. destruct Hi as [[Na _]|(i' & Ia' & Mi)]; [congruence|]. assert (i' = i) by congruence. subst i'.
    assert (Oi : occurs h a0 i) by (eapply occ_child; [exact Oc|exact Sh|discriminate|now constructor]).
    destruct (proj1 (cl _ _ Oc Sh) i) as (shi & Si); [now constructor|].
    apply It; auto.
    + eapply mirrors_not_null; [exact Mi|exact Si|]. intros ->. destruct (same _ _ Oi Si).
    + eapply refs_below; [exact R|apply below_items].
    + eapply vok_arr; eauto.
  - assert (Sh : shape_at h a (SObject f)) by (exists b; auto). exists (SObject f). split; auto.
    apply sstep_node in A; [|reflexivity]. destruct A as (Ty & _ & _ & Ob).
    apply (type_keywords O F _ "object") in Ty; try reflexivity; [|discriminate]. apply object_type in Ty. destruct Ty as [kvs ->].
    destruct (Ob kvs eq_refl) as (Lo & Hx & Rq & Each).
    destruct (same _ _ Oc Sh) as [SM1 SM2]. destruct (SM2 l pl L PL) as (ND1 & ND2 & Sl & Ov). clear SM2.
    exists kvs, l, pl. split; auto. split; auto. split; auto. split; [exact Lo|]. split; [exact Hx|]. split; [|split].
    + intros k p I Rp. apply Rq. apply in_required. eauto.
    + intros k y p I Lp. destruct (Each k y I) as (E1 & _ & _).
      pose proof (forall2_oget (fun p t => mirrors E (p_base p) t) _ _ k F2) as FO. rewrite Lp in FO.
      destruct (oget k (entries ls)) as [t|] eqn:T; [|contradiction]. apply (E1 t eq_refl); auto.
      * eapply occ_child; [exact Oc|exact Sh|discriminate|]. eapply ch_prop; [exact L|]. apply oget_some_in. exact Lp.
      * eapply refs_below; [exact R|]. eapply below_prop; eauto.
      * eapply vok_map; eauto.
    + intros k y I Ln. destruct (Each k y I) as (_ & E2 & E3).
      pose proof (forall2_oget (fun p t => mirrors E (p_base p) t) _ _ k F2) as FO. rewrite Ln in FO.
      destruct (oget k (entries ls)) as [t|] eqn:T; [contradiction|]. split.
      * intros Af. destruct (E3 Af) as [X|(q & t & It & _)]; [congruence|]. destruct pls as [pls|]; [|destruct It].
        apply SM1; auto. intros Np. apply N2 in Np. discriminate.
      * destruct (existsb (fun kp => o_match O (p_name (snd kp)) k) pl) eqn:Ex.
        -- right. apply existsb_exists in Ex. destruct Ex as ([k' p] & Ip & Om). simpl in Om. exists k', p. split; auto. split; auto.
           destruct (Pk k' p Ip) as (q & t & Uq & It). pose proof (Sl k' p Ip) as Ek. rewrite Ek, unslash_slashes in Uq. injection Uq as <-.
           destruct (Pq _ _ It) as (k2 & p2 & Ip2 & Uq2 & Mp2). rewrite (Sl k2 p2 Ip2), unslash_slashes in Uq2. injection Uq2 as Uq2.
           assert (Eq : (k2, p2) = (k', p)) by (apply (proj2 (Ov k k' p Ip Om)); [auto|congruence]). inversion Eq; subst k2 p2.
           apply (E2 _ t It Om); auto.
           ++ eapply occ_child; [exact Oc|exact Sh|discriminate|]. eapply ch_pprop; [exact PL|exact Ip].
           ++ eapply refs_below; [exact R|]. eapply below_pprop; eauto.
           ++ eapply vok_map; eauto.
        -- left. intros k' p Ip. destruct (o_match O (p_name p) k) eqn:Om; auto.
           assert (Ex' : existsb (fun kp => o_match O (p_name (snd kp)) k) pl = true) by (apply existsb_exists; exists (k', p); auto).
           congruence.
  - assert (Sh : shape_at h a (SUnion sl e)) by (exists b; auto). exists (SUnion sl e). split; auto.
    apply sstep_node in A; [|reflexivity]. destruct A as (_ & An & _).
    assert (Nl : l <> []) by (apply (same _ _ Oc Sh); exact Gl).
    destruct An as (t & It & Pt); [intros ->; inversion F2; subst; congruence|].
    destruct (Forall2_in_r _ _ _ F2 t It) as (m & Im & Mm). exists l, m. split; auto. split; auto. apply Pt; auto.
    + eapply occ_child; [exact Oc|exact Sh|discriminate|]. eapply ch_member; eauto.
    + eapply refs_below; [exact R|]. now apply below_any.
  - exists (SRec hd). split; auto. simpl. simpl in A. destruct A as (n & t & Rn & T & Pt).
    change (def_ref (b_name hb) = def_ref n) in Rn. apply def_ref_inj in Rn. subst n.
    destruct (heads _ _ _ _ Oc Sr Gh T) as [Mt Rt]. apply Pt; auto. eapply oc_head; eauto.
  - destruct (same _ _ Oc Sr).
  - destruct A.
Qed.
End Meaning.
