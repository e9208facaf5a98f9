(** Proofs about the scalar kinds. *)
From Coq Require Import ZArith List String Bool Lia.
From Coq Require Import Floats.SpecFloat.
From Coq Require Import ZifyBool.
From Verif Require Import Base Scalars Spec_Scalars.
Import ListNotations.
Open Scope string_scope.
Open Scope Z_scope.

Lemma is_int64_iff z : is_int64 z = true <-> int_range z.
Proof. unfold is_int64, int_range. rewrite andb_true_iff. lia. Qed.

Lemma is_int64_false z : is_int64 z = false <-> ~ int_range z.
Proof. rewrite <- is_int64_iff. destruct (is_int64 z); split; congruence. Qed.

(** * Floats *)

Lemma Z_of_float_trunc f z : Z_of_float f = Some z <-> float_trunc f z.
Proof.
  destruct f as [s|s| |s m e]; simpl.
  - split; congruence.
  - split; [discriminate|tauto].
  - split; [discriminate|tauto].
  - destruct (0 <=? e) eqn:He.
    + split.
      * intros H; injection H as <-. exists (Z.pos m * 2 ^ e).
        split; [reflexivity|]. split; [|left; split; [lia|reflexivity]].
        apply Z.mul_nonneg_nonneg; [lia|]. apply Z.pow_nonneg; lia.
      * intros (a & -> & _ & [[_ ->]|[H _]]); [reflexivity|lia].
    + assert (Hp : 0 < 2 ^ (- e)) by (apply Z.pow_pos_nonneg; lia).
      split.
      * intros H; injection H as <-. exists (Z.pos m / 2 ^ (- e)).
        split; [reflexivity|]. split; [apply Z.div_pos; lia|].
        right. split; [lia|].
        pose proof (Z.mul_div_le (Z.pos m) (2 ^ (- e)) Hp).
        pose proof (Z.mul_succ_div_gt (Z.pos m) (2 ^ (- e)) Hp).
        rewrite <- Z.add_1_r in H0. split; lia.
      * intros (a & -> & _ & [[H _]|[_ [H1 H2]]]); [lia|].
        assert (Z.pos m / 2 ^ (- e) = a) as ->; [|reflexivity].
        symmetry. apply Z.div_unique with (r := Z.pos m - a * 2 ^ (- e)); lia.
Qed.

Lemma float_exact_trunc f z : float_exact f z -> float_trunc f z.
Proof.
  destruct f as [s|s| |s m e]; cbn [float_exact float_trunc]; try tauto.
  intros [[He ->]|[He Hz]].
  - exists (Z.pos m * 2 ^ e). split; [destruct s; ring|].
    split; [|left; split; [lia|reflexivity]]. apply Z.mul_nonneg_nonneg; [lia|]. apply Z.pow_nonneg; lia.
  - assert (Hp : 0 < 2 ^ (- e)) by (apply Z.pow_pos_nonneg; lia).
    exists (if s then - z else z). destruct s.
    + split; [lia|]. split; [nia|]. right. split; [lia|]. nia.
    + split; [lia|]. split; [nia|]. right. split; [lia|]. nia.
Qed.

Lemma SFltb_flt a b : SFltb a b = true <-> flt a b.
Proof.
  unfold SFltb, flt. destruct (SFcompare a b) as [[]|]; split; congruence.
Qed.

Lemma SFltb_not_flt a b : SFltb a b = false <-> ~ flt a b.
Proof. rewrite <- SFltb_flt. destruct (SFltb a b); split; congruence. Qed.

Lemma SFeqb_feq a b : SFeqb a b = true <-> feq a b.
Proof.
  unfold SFeqb, feq. destruct (SFcompare a b) as [[]|]; split; congruence.
Qed.

(** A key that orders non-NaN floats lexicographically. *)
Definition fkey (f : float64) : Z * Z * Z :=
  match f with
  | S754_zero _ => (0, 0, 0)
  | S754_infinity s => (if s then -2 else 2, 0, 0)
  | S754_nan => (0, 0, 0)
  | S754_finite false m e => (1, e, Zpos m)
  | S754_finite true m e => (-1, - e, Zneg m)
  end.

Definition not_nan (f : float64) : Prop := f <> S754_nan.

Definition klt (a b : Z * Z * Z) : Prop :=
  let '(a1, a2, a3) := a in
  let '(b1, b2, b3) := b in
  a1 < b1 \/ (a1 = b1 /\ (a2 < b2 \/ (a2 = b2 /\ a3 < b3))).

Lemma SFcompare_key a b :
  not_nan a -> not_nan b ->
  match SFcompare a b with
  | Some Lt => klt (fkey a) (fkey b)
  | Some Gt => klt (fkey b) (fkey a)
  | Some Eq => fkey a = fkey b
  | None => False
  end.
Proof.
  intros Ha Hb.
  destruct a as [s|s| |s m e]; destruct b as [t|t| |t n g];
    try (exfalso; (apply Ha; reflexivity) || (apply Hb; reflexivity));
    simpl; try (destruct s); try (destruct t); simpl; try lia; try reflexivity.
  - destruct (Z.compare_spec e g) as [Heg|Heg|Heg]; simpl.
    + subst g. change (Pos.compare_cont Eq m n) with (Pos.compare m n).
      destruct (Pos.compare_spec m n); simpl; try lia. congruence.
    + lia.
    + lia.
  - destruct (Z.compare_spec e g) as [Heg|Heg|Heg]; simpl.
    + subst g. change (Pos.compare_cont Eq m n) with (Pos.compare m n).
      destruct (Pos.compare_spec m n); simpl; try lia. congruence.
    + lia.
    + lia.
Qed.

Lemma SFcompare_nan_l b : SFcompare S754_nan b = None.
Proof. reflexivity. Qed.

Lemma SFcompare_nan_r a : SFcompare a S754_nan = None.
Proof. destruct a as [[]|[]| |[] m e]; reflexivity. Qed.

Lemma SFcompare_some_not_nan a b c : SFcompare a b = Some c -> not_nan a /\ not_nan b.
Proof.
  intros H; split; intros ->.
  - rewrite SFcompare_nan_l in H; discriminate.
  - rewrite SFcompare_nan_r in H; discriminate.
Qed.

Lemma flt_key a b : flt a b -> not_nan a /\ not_nan b /\ klt (fkey a) (fkey b).
Proof.
  intros H. destruct (SFcompare_some_not_nan _ _ _ H) as [Ha Hb].
  pose proof (SFcompare_key a b Ha Hb) as K. unfold flt in H. rewrite H in K. auto.
Qed.

Lemma not_flt_key a b : not_nan a -> not_nan b -> ~ flt a b -> ~ klt (fkey a) (fkey b).
Proof.
  intros Ha Hb H. pose proof (SFcompare_key a b Ha Hb) as K. unfold flt in H.
  destruct (SFcompare a b) as [[]|]; try congruence; try tauto.
  - rewrite K. destruct (fkey b) as [[? ?] ?]; simpl; lia.
  - destruct (fkey a) as [[? ?] ?], (fkey b) as [[? ?] ?]; simpl in *; lia.
Qed.

Lemma klt_flt a b : not_nan a -> not_nan b -> klt (fkey a) (fkey b) -> flt a b.
Proof.
  intros Ha Hb H. pose proof (SFcompare_key a b Ha Hb) as K. unfold flt.
  destruct (SFcompare a b) as [[]|]; try tauto.
  - rewrite K in H. destruct (fkey b) as [[? ?] ?]; simpl in H; lia.
  - destruct (fkey a) as [[? ?] ?], (fkey b) as [[? ?] ?]; simpl in *; lia.
Qed.

(** If [v < p] and not [c < p] (with [c] a number) then [v < c]. *)
Lemma flt_below v p c : not_nan c -> flt v p -> ~ flt c p -> flt v c.
Proof.
  intros Hc H1 H2. destruct (flt_key _ _ H1) as (Hv & Hp & K).
  apply klt_flt; auto. apply (not_flt_key c p Hc Hp) in H2.
  destruct (fkey v) as [[? ?] ?], (fkey p) as [[? ?] ?], (fkey c) as [[? ?] ?]; simpl in *; lia.
Qed.

Lemma flt_above v p c : not_nan c -> flt p v -> ~ flt p c -> flt c v.
Proof.
  intros Hc H1 H2. destruct (flt_key _ _ H1) as (Hp & Hv & K).
  apply klt_flt; auto. apply (not_flt_key p c Hp Hc) in H2.
  destruct (fkey v) as [[? ?] ?], (fkey p) as [[? ?] ?], (fkey c) as [[? ?] ?]; simpl in *; lia.
Qed.

Lemma feq_key a b : feq a b <-> not_nan a /\ not_nan b /\ fkey a = fkey b.
Proof.
  unfold feq. split.
  - intros H. destruct (SFcompare_some_not_nan _ _ _ H) as [Ha Hb].
    pose proof (SFcompare_key a b Ha Hb) as K. rewrite H in K. auto.
  - intros (Ha & Hb & K). pose proof (SFcompare_key a b Ha Hb) as K'. rewrite K in K'.
    destruct (SFcompare a b) as [[]|]; try reflexivity; try tauto;
      destruct (fkey b) as [[? ?] ?]; simpl in K'; lia.
Qed.

Lemma feq_trans a b c : feq a b -> feq b c -> feq a c.
Proof.
  rewrite !feq_key. intros (H1 & H2 & H3) (H4 & H5 & H6). repeat split; auto. congruence.
Qed.

Lemma feq_sym a b : feq a b -> feq b a.
Proof. rewrite !feq_key. intros (H1 & H2 & H3). auto. Qed.

(** * Enums *)

Lemma go_eq_comparable e v : comparable v -> go_eq e v <> None.
Proof. destruct e, v; simpl; intros H; try tauto; discriminate. Qed.

Lemma go_eq_sym a b : go_eq a b = go_eq b a.
Proof.
  destruct a, b; simpl; try reflexivity; f_equal.
  - destruct b0, b; reflexivity.
  - apply Z.eqb_sym.
  - apply Z.eqb_sym.
  - apply Z.eqb_sym.
  - destruct (SFeqb f f0) eqn:E1, (SFeqb f0 f) eqn:E2; try reflexivity.
    + apply SFeqb_feq in E1. apply feq_sym, SFeqb_feq in E1. congruence.
    + apply SFeqb_feq in E2. apply feq_sym, SFeqb_feq in E2. congruence.
  - apply String.eqb_sym.
  - rewrite String.eqb_sym, Z.eqb_sym. reflexivity.
Qed.

Lemma go_eq_trans a b c : go_eq a b = Some true -> go_eq b c = Some true -> go_eq a c = Some true.
Proof.
  destruct a, b; simpl; try discriminate; destruct c; simpl; try discriminate; intros H1 H2;
    f_equal; injection H1 as H1; injection H2 as H2; try reflexivity.
  - destruct b, b0, b1; simpl in *; congruence.
  - lia.
  - lia.
  - lia.
  - apply SFeqb_feq. apply SFeqb_feq in H1, H2. eapply feq_trans; eauto.
  - apply String.eqb_eq in H1, H2. apply String.eqb_eq. congruence.
  - apply andb_true_iff in H1, H2. rewrite !String.eqb_eq, !Z.eqb_eq in *.
    apply andb_true_iff. rewrite String.eqb_eq, Z.eqb_eq. intuition congruence.
Qed.

Lemma enum_find_cases v l :
  match enum_find v l with
  | Ok true => exists e, In e l /\ go_eq e v = Some true
  | Ok false => forall e, In e l -> go_eq e v = Some false
  | Panic => exists e, In e l /\ go_eq e v = None
  | _ => False
  end.
Proof.
  induction l as [|e l IH]; simpl.
  - intros e [].
  - destruct (go_eq e v) as [[]|] eqn:E.
    + exists e; auto.
    + destruct (enum_find v l) as [[]| | |]; try tauto.
      * destruct IH as (x & H1 & H2); exists x; auto.
      * intros x [<-|H]; auto.
      * destruct IH as (x & H1 & H2); exists x; auto.
    + exists e; auto.
Qed.

Lemma enum_find_true v l :
  comparable v -> (enum_find v l = Ok true <-> exists e, In e l /\ go_eq e v = Some true).
Proof.
  intros Hc. pose proof (enum_find_cases v l) as H.
  destruct (enum_find v l) as [[]| | |]; try tauto; split; intros K; try discriminate; auto.
  - destruct K as (e & H1 & H2). rewrite (H e H1) in H2. discriminate.
  - destruct H as (e & _ & H2). destruct (go_eq_comparable e v Hc H2).
Qed.

Lemma enum_find_ok v l : comparable v -> exists b, enum_find v l = Ok b.
Proof.
  intros Hc. pose proof (enum_find_cases v l) as H.
  destruct (enum_find v l) as [b| | |]; try tauto; [eauto|].
  destruct H as (e & _ & H2). destruct (go_eq_comparable e v Hc H2).
Qed.

Lemma enum_validate_iff e v :
  comparable v ->
  (enum_validate e v = Ok tt <->
   forall l, e = Some l -> exists x, In x l /\ go_eq x v = Some true).
Proof.
  intros Hc. destruct e as [l|]; simpl.
  - split.
    + intros H l' [= <-]. apply enum_find_true; auto.
      destruct (enum_find_ok v l Hc) as [b Hb]. rewrite Hb in *. simpl in H.
      destruct b; [reflexivity|discriminate].
    + intros H. specialize (H l eq_refl). apply enum_find_true in H; auto. now rewrite H.
  - split; auto. intros _ l; discriminate.
Qed.

Lemma enum_validate_total e v : comparable v -> enum_validate e v = Ok tt \/ enum_validate e v = Err.
Proof.
  intros Hc. destruct e as [l|]; simpl; auto.
  destruct (enum_find_ok v l Hc) as [[] ->]; simpl; auto.
Qed.

Lemma go_eq_int x z : go_eq x (GInt z) = Some true <-> x = GInt z.
Proof.
  destruct x; simpl; split; intros H; try discriminate.
  - injection H as H. f_equal. now apply Z.eqb_eq.
  - injection H as ->. now rewrite Z.eqb_refl.
Qed.
Lemma go_eq_uint x z : go_eq x (GUint z) = Some true <-> x = GUint z.
Proof.
  destruct x; simpl; split; intros H; try discriminate.
  - injection H as H. f_equal. now apply Z.eqb_eq.
  - injection H as ->. now rewrite Z.eqb_refl.
Qed.
Lemma go_eq_str x z : go_eq x (GStr z) = Some true <-> x = GStr z.
Proof.
  destruct x; simpl; split; intros H; try discriminate.
  - f_equal. injection H as H. now apply String.eqb_eq in H.
  - injection H as ->. now rewrite String.eqb_refl.
Qed.
Lemma go_eq_bool x z : go_eq x (GBool z) = Some true <-> x = GBool z.
Proof.
  destruct x; simpl; split; intros H; try discriminate.
  - f_equal. injection H as H. now apply Bool.eqb_prop in H.
  - injection H as ->. now rewrite Bool.eqb_reflx.
Qed.
Lemma go_eq_float x z : go_eq x (GFloat z) = Some true <-> exists g, x = GFloat g /\ feq g z.
Proof.
  destruct x; simpl; split; intros H; try discriminate; try (destruct H as (g & H & _); discriminate).
  - injection H as H. apply SFeqb_feq in H. eauto.
  - destruct H as (g & [= ->] & H). f_equal. now apply SFeqb_feq.
Qed.

Lemma enum_ex_iff (P : gval -> Prop) w (l : list gval) :
  (forall x, P x <-> x = w) -> ((exists x, In x l /\ P x) <-> In w l).
Proof.
  intros H. split.
  - intros (x & H1 & H2). apply H in H2. now subst.
  - intros H1. exists w. split; auto. now apply H.
Qed.

(** * Bounds *)

Lemma below_Z v b : below Z.ltb v b = false <-> at_least b v.
Proof.
  destruct b as [m|]; simpl; unfold at_least; split; intros H; try congruence; try discriminate.
  - intros m' [= <-]. lia.
  - specialize (H m eq_refl). lia.
Qed.

Lemma above_Z v b : above Z.ltb v b = false <-> at_most b v.
Proof.
  destruct b as [m|]; simpl; unfold at_most; split; intros H; try congruence; try discriminate.
  - intros m' [= <-]. lia.
  - specialize (H m eq_refl). lia.
Qed.

Lemma below_F v b : below SFltb v b = false <-> (forall m, b = Some m -> ~ flt v m).
Proof.
  destruct b as [m|]; simpl.
  - rewrite SFltb_not_flt. split; [intros H m' [= <-]; auto|auto].
  - split; auto. discriminate.
Qed.

Lemma above_F v b : above SFltb v b = false <-> (forall m, b = Some m -> ~ flt m v).
Proof.
  destruct b as [m|]; simpl.
  - rewrite SFltb_not_flt. split; [intros H m' [= <-]; auto|auto].
  - split; auto. discriminate.
Qed.

Lemma if_err {b : bool} {A} {r : res A} {a} : (if b then Err else r) = Ok a <-> b = false /\ r = Ok a.
Proof. destruct b; split; intros H; try discriminate; try tauto. destruct H; discriminate. Qed.

(** * Validation *)

Lemma int_core s z :
  int_range z \/ uint_range z ->
  ((if below Z.ltb z (if_min s) then Err
    else if above Z.ltb z (if_max s) then Err
    else enum_validate (if_enum s)
           (if is_int64 z then GInt z else if is_uint64 z then GUint z else GNil)) = Ok tt
   <-> at_least (if_min s) z /\ at_most (if_max s) z /\ int_in_enum (if_enum s) z).
Proof.
  intros Hr. rewrite !if_err, below_Z, above_Z.
  assert (enum_validate (if_enum s)
           (if is_int64 z then GInt z else if is_uint64 z then GUint z else GNil) = Ok tt
          <-> int_in_enum (if_enum s) z) as ->; [|tauto].
  destruct (is_int64 z) eqn:E.
  - rewrite enum_validate_iff by exact I. unfold int_in_enum.
    apply is_int64_iff in E. split; intros H l Hl; specialize (H l Hl).
    + left. split; auto. eapply enum_ex_iff in H; eauto. intros x; apply go_eq_int.
    + eapply enum_ex_iff; [intros x; apply go_eq_int|]. tauto.
  - assert (is_uint64 z = true) as ->.
    { apply is_int64_false in E. unfold is_uint64, uint_range in *. unfold int_range in *.
      rewrite andb_true_iff. lia. }
    rewrite enum_validate_iff by exact I. unfold int_in_enum.
    apply is_int64_false in E. split; intros H l Hl; specialize (H l Hl).
    + right. split; auto. eapply enum_ex_iff in H; eauto. intros x; apply go_eq_uint.
    + eapply enum_ex_iff; [intros x; apply go_eq_uint|]. tauto.
Qed.

Lemma go_int64_range O f : oracle_wf O -> int_range (go_int64 O f).
Proof.
  intros H. unfold go_int64. destruct (Z_of_float f) as [z|]; [|apply H].
  destruct (is_int64 z) eqn:E; [now apply is_int64_iff|apply H].
Qed.

Lemma int_denotes_float O f z : int_denotes O (GFloat f) z <-> z = go_int64 O f.
Proof.
  unfold go_int64. split.
  - intros H; inversion H as [| |? ? Ht Hr|? y Ht Hr|? Hn]; subst.
    + apply Z_of_float_trunc in Ht. rewrite Ht. apply is_int64_iff in Hr. now rewrite Hr.
    + apply Z_of_float_trunc in Ht. rewrite Ht. apply is_int64_false in Hr. now rewrite Hr.
    + destruct (Z_of_float f) as [y|] eqn:E; auto.
      apply Z_of_float_trunc in E. destruct (Hn _ E).
  - intros ->. destruct (Z_of_float f) as [y|] eqn:E.
    + apply Z_of_float_trunc in E. destruct (is_int64 y) eqn:Ey.
      * apply is_int64_iff in Ey. now apply id_float.
      * apply is_int64_false in Ey. now apply id_float_big with y.
    + apply id_float_nan. intros y Hy. apply Z_of_float_trunc in Hy. congruence.
Qed.

Lemma int_validate_iff O s v :
  oracle_wf O -> gval_wf v -> (int_validate O s v = Ok tt <-> int_accepts O s v).
Proof.
  intros HO Hv. unfold int_accepts.
  destruct v; simpl in Hv |- *;
    try (split; [discriminate|intros (y & H & _); inversion H]).
  - rewrite int_core by auto.
    split; [intros H; exists z; split; [constructor|auto]|intros (y & H & K); inversion H; subst; auto].
  - rewrite int_core by auto.
    split; [intros H; exists z; split; [constructor|auto]|intros (y & H & K); inversion H; subst; auto].
  - rewrite int_core by (left; now apply go_int64_range).
    split.
    + intros H. exists (go_int64 O f). split; auto. now apply int_denotes_float.
    + intros (y & H & K). apply int_denotes_float in H. now subst.
Qed.

Lemma int_validate_total O s v :
  int_validate O s v = Ok tt \/ int_validate O s v = Err.
Proof.
  unfold int_validate.
  assert (forall z, let num := if is_int64 z then GInt z
                 else if is_uint64 z then GUint z else GNil in comparable num) as Hc.
  { intros z. simpl. destruct (is_int64 z); [exact I|]. destruct (is_uint64 z); exact I. }
  assert (forall z : Z,
    (if below Z.ltb z (if_min s) then Err
     else if above Z.ltb z (if_max s) then Err
     else enum_validate (if_enum s)
           (if is_int64 z then GInt z else if is_uint64 z then GUint z else GNil)) = Ok tt \/
    (if below Z.ltb z (if_min s) then Err
     else if above Z.ltb z (if_max s) then Err
     else enum_validate (if_enum s)
           (if is_int64 z then GInt z else if is_uint64 z then GUint z else GNil)) = Err) as H.
  { intros z. destruct (below _ _ _); auto. destruct (above _ _ _); auto.
    apply enum_validate_total, Hc. }
  destruct v; auto; apply H.
Qed.

Lemma float_trunc_fun f a b : float_trunc f a -> float_trunc f b -> a = b.
Proof. rewrite <- !Z_of_float_trunc. congruence. Qed.

Lemma int_validate_exact O s f z :
  float_exact f z -> int_range z -> int_validate O s (GFloat f) = int_validate O s (GInt z).
Proof.
  intros Hf Hz. unfold int_validate. replace (go_int64 O f) with z; [reflexivity|].
  apply int_denotes_float. apply id_float; auto. now apply float_exact_trunc.
Qed.

Lemma num_validate_iff s v : num_validate s v = Ok tt <-> num_accepts s v.
Proof.
  unfold num_accepts.
  assert (forall f, (if below SFltb f (nf_min s) then Err
    else if above SFltb f (nf_max s) then Err
    else enum_validate (nf_enum s) (GFloat f)) = Ok tt <->
    (forall m, nf_min s = Some m -> ~ flt f m) /\ (forall m, nf_max s = Some m -> ~ flt m f)
    /\ (forall l, nf_enum s = Some l -> exists g, In (GFloat g) l /\ feq g f)) as H.
  { intros f. rewrite !if_err, below_F, above_F, enum_validate_iff by exact I.
    assert ((forall l, nf_enum s = Some l -> exists x, In x l /\ go_eq x (GFloat f) = Some true)
      <-> (forall l, nf_enum s = Some l -> exists g, In (GFloat g) l /\ feq g f)) as ->; [|tauto].
    split; intros H l Hl; destruct (H l Hl) as (x & H1 & H2).
    - apply go_eq_float in H2 as (g & -> & H2). eauto.
    - exists (GFloat x). split; auto. apply go_eq_float. eauto. }
  destruct v; simpl; try (split; [discriminate|intros (y & K & _); inversion K]);
    rewrite H; (split; [intros K; eexists; split; [constructor|exact K]|
                        intros (y & K & L); inversion K; subst; exact L]).
Qed.

Lemma num_validate_total s v : num_validate s v = Ok tt \/ num_validate s v = Err.
Proof.
  unfold num_validate.
  destruct v; auto; (destruct (below _ _ _); auto; destruct (above _ _ _); auto;
    apply enum_validate_total; exact I).
Qed.

Lemma str_validate_iff O s v : str_validate O s v = Ok tt <-> str_accepts O s v.
Proof.
  unfold str_accepts. destruct v as [| | | | | |i| | |]; simpl;
    try (split; [discriminate|intros (y & K & _); discriminate]).
  rewrite !if_err, below_Z, above_Z, enum_validate_iff by exact I. unfold blen.
  assert ((match sf_pat s with Some p => negb (o_match O p i) | None => false end) = false
    <-> (forall p, sf_pat s = Some p -> o_match O p i = true)) as ->.
  { destruct (sf_pat s) as [p|].
    - rewrite negb_false_iff. split; [intros H q [= <-]; auto|auto].
    - split; auto. discriminate. }
  assert ((forall l, sf_enum s = Some l -> exists x, In x l /\ go_eq x (GStr i) = Some true)
    <-> (forall l, sf_enum s = Some l -> In (GStr i) l)) as ->.
  { split; intros H l Hl; specialize (H l Hl);
      (eapply enum_ex_iff; [intros x; apply go_eq_str|exact H]) ||
      (eapply enum_ex_iff in H; [exact H|intros x; apply go_eq_str]). }
  split; [intros H; exists i; tauto|intros (y & [= <-] & K); tauto].
Qed.

Lemma str_validate_total O s v : str_validate O s v = Ok tt \/ str_validate O s v = Err.
Proof.
  destruct v; simpl; auto.
  destruct (below _ _ _); auto. destruct (above _ _ _); auto.
  destruct (match sf_pat s with Some p => negb (o_match O p s0) | None => false end); auto.
  apply enum_validate_total; exact I.
Qed.

Lemma file_validate_iff s v : file_validate s v = Ok tt <-> file_accepts s v.
Proof.
  unfold file_accepts. destruct v as [| | | | | |i| | |]; simpl;
    try (split; [discriminate|intros (y & K & _); discriminate]).
  rewrite !if_err, below_Z, above_Z. unfold blen.
  split; [intros H; exists i; tauto|intros (y & [= <-] & K); tauto].
Qed.

Lemma file_validate_total s v : file_validate s v = Ok tt \/ file_validate s v = Err.
Proof.
  destruct v; simpl; auto. destruct (below _ _ _); auto. destruct (above _ _ _); auto.
Qed.

Lemma bool_validate_iff e v : bool_validate e v = Ok tt <-> bool_accepts e v.
Proof.
  unfold bool_accepts. destruct v as [|b| | | | | | | |]; simpl;
    try (split; [discriminate|intros (y & K & _); discriminate]).
  rewrite enum_validate_iff by exact I.
  assert ((forall l, e = Some l -> exists x, In x l /\ go_eq x (GBool b) = Some true)
    <-> (forall l, e = Some l -> In (GBool b) l)) as ->.
  { split; intros H l Hl; specialize (H l Hl);
      (eapply enum_ex_iff; [intros x; apply go_eq_bool|exact H]) ||
      (eapply enum_ex_iff in H; [exact H|intros x; apply go_eq_bool]). }
  split; [intros H; exists b; tauto|intros (y & [= <-] & K); tauto].
Qed.

Lemma bool_validate_total e v : bool_validate e v = Ok tt \/ bool_validate e v = Err.
Proof. destruct v; simpl; auto. apply enum_validate_total; exact I. Qed.

Lemma layout_validate_iff O l v : layout_validate O l v = Ok tt <-> layout_accepts O l v.
Proof.
  unfold layout_accepts. destruct v as [| | | | | |i| | |]; simpl;
    try (split; [discriminate|intros (y & K & _); discriminate]).
  destruct (o_time O l i) eqn:E.
  - split; eauto.
  - split; [discriminate|]. intros (y & [= <-] & K). congruence.
Qed.

Lemma layout_validate_total O l v : layout_validate O l v = Ok tt \/ layout_validate O l v = Err.
Proof. destruct v; simpl; auto. destruct (o_time _ _ _); auto. Qed.

Lemma datetime_validate_iff O f v : datetime_validate O f v = Ok tt <-> datetime_accepts O f v.
Proof.
  unfold datetime_accepts. destruct v as [| | | | | |i| | |]; simpl;
    try (split; [discriminate|intros (y & K & _); discriminate]).
  assert ((match f with
   | Some f0 => if f0 =? "rfc3339" then if o_time O layout_rfc3339 i then Ok tt else Err
      else if f0 =? "rfc2616" then if o_time O layout_rfc2616 i then Ok tt else Err else Ok tt
   | None => if o_time O layout_rfc3339 i then Ok tt else Err end)%string = Ok tt
   <-> (forall l, datetime_layout f l -> o_time O l i = true)) as H.
  { assert (forall g l0, (forall l, datetime_layout g l <-> l = l0) ->
             ((if o_time O l0 i then Ok tt else Err) = Ok tt <->
              (forall l, datetime_layout g l -> o_time O l i = true))) as A.
    { intros g l0 Hg. destruct (o_time O l0 i) eqn:E.
      - split; auto. intros _ l Hl. apply Hg in Hl. now subst.
      - split; [discriminate|]. intros H. specialize (H l0 (proj2 (Hg l0) eq_refl)). congruence. }
    destruct f as [g|].
    2:{ apply A. intros l; split; intros K; [inversion K; reflexivity|subst; constructor]. }
    destruct (String.eqb_spec g "rfc3339") as [->|N1].
    { apply A. intros l; split; intros K; [inversion K; reflexivity|subst; constructor]. }
    destruct (String.eqb_spec g "rfc2616") as [->|N2].
    { apply A. intros l; split; intros K; [inversion K; reflexivity|subst; constructor]. }
    split; auto. intros _ l Hl. inversion Hl; subst; congruence. }
  rewrite H. split; [intros K; exists i; auto|intros (y & [= <-] & K); auto].
Qed.

Lemma datetime_validate_total O f v : datetime_validate O f v = Ok tt \/ datetime_validate O f v = Err.
Proof.
  destruct v; simpl; auto.
  destruct f as [g|].
  - destruct (String.eqb g "rfc3339"); [destruct (o_time _ _ _); auto|].
    destruct (String.eqb g "rfc2616"); [destruct (o_time _ _ _); auto|auto].
  - destruct (o_time _ _ _); auto.
Qed.

Lemma nil_validate_iff v : nil_validate v = Ok tt <-> v = GNil.
Proof. destruct v; simpl; split; congruence. Qed.

(** * Check *)

Lemma crossed_Z lo hi : crossed Z.ltb lo hi = false <-> bounds_ok lo hi.
Proof.
  unfold bounds_ok. destruct lo as [a|], hi as [b|]; simpl; split; intros H; try reflexivity; try discriminate.
  - intros a' b' [= <-] [= <-]. lia.
  - specialize (H a b eq_refl eq_refl). lia.
Qed.

Lemma crossed_F lo hi : crossed SFltb lo hi = false <-> fbounds_ok lo hi.
Proof.
  unfold fbounds_ok. destruct lo as [a|], hi as [b|]; simpl; try (split; auto; discriminate).
  rewrite SFltb_not_flt. split; [intros H a' b' [= <-] [= <-]; auto|auto].
Qed.

Lemma enum_check_iff (k : gval -> bool) (P : gval -> Prop) e :
  (forall v, k v = true <-> P v) -> (negb (enum_check k e) = false <-> enum_all P e).
Proof.
  intros HP. unfold enum_all, enum_check. destruct e as [l|].
  - rewrite negb_false_iff, forallb_forall.
    split.
    + intros H l' [= <-]. apply Forall_forall. intros x Hx. apply HP; auto.
    + intros H. specialize (H l eq_refl). rewrite Forall_forall in H. intros x Hx. apply HP; auto.
  - split; auto. discriminate.
Qed.

Lemma int_format_code_known f : int_format_code f <> None <-> In f known_int_formats.
Proof.
  unfold int_format_code, known_int_formats.
  repeat match goal with
  | |- context [String.eqb f ?s] => destruct (String.eqb_spec f s) as [->|?]
  end; simpl; split; intros H; try tauto; try discriminate;
    try (destruct H as [H|[H|[H|[H|[H|[H|[]]]]]]]; subst; congruence).
Qed.

Lemma int_check_iff s : int_check s = Ok tt <-> int_consistent s.
Proof.
  unfold int_check, int_consistent. rewrite !if_err, crossed_Z.
  rewrite (enum_check_iff _ (fun v => (exists z, v = GInt z) \/ (exists z, v = GUint z))).
  2:{ intros v. destruct v; simpl; split; intros H; try discriminate; eauto;
      destruct H as [[? H]|[? H]]; discriminate. }
  assert ((match if_format s with
    | Some f => match int_format_code f with Some _ => Ok tt | None => Err end
    | None => Ok tt end) = Ok tt <-> (forall f, if_format s = Some f -> In f known_int_formats)) as ->; [|tauto].
  destruct (if_format s) as [f|]; [|split; auto; discriminate].
  pose proof (int_format_code_known f) as K.
  destruct (int_format_code f); split; intros H; try discriminate; auto.
  - intros g [= <-]. apply K. discriminate.
  - specialize (H f eq_refl). apply K in H. congruence.
Qed.

Lemma num_check_iff s : num_check s = Ok tt <-> num_consistent s.
Proof.
  unfold num_check, num_consistent. rewrite !if_err, crossed_F.
  rewrite (enum_check_iff _ (fun v => (exists z, v = GInt z) \/ (exists z, v = GUint z) \/ (exists f, v = GFloat f))).
  2:{ intros v. destruct v; simpl; split; intros H; try discriminate; eauto;
      destruct H as [[? H]|[[? H]|[? H]]]; discriminate. }
  tauto.
Qed.

Lemma str_kind_iff v : is_str_kind v = true <-> exists i, v = GStr i.
Proof. destruct v; simpl; split; intros H; try discriminate; eauto; destruct H; discriminate. Qed.

Lemma str_check_iff s : str_check s = Ok tt <-> str_consistent s.
Proof.
  unfold str_check, str_consistent. rewrite !if_err, crossed_Z.
  rewrite (enum_check_iff _ _ _ str_kind_iff). tauto.
Qed.

Lemma file_check_iff s : file_check s = Ok tt <-> file_consistent s.
Proof.
  unfold file_check, file_consistent. rewrite !if_err, crossed_Z.
  rewrite (enum_check_iff _ _ _ str_kind_iff). tauto.
Qed.

Lemma bool_check_iff e : bool_check e = Ok tt <-> bool_consistent e.
Proof.
  unfold bool_check, bool_consistent. rewrite !if_err.
  rewrite (enum_check_iff _ (fun v => exists b, v = GBool b)); [tauto|].
  destruct v; simpl; split; intros H; try discriminate; eauto; destruct H; discriminate.
Qed.

(** * Inheritance *)

Lemma rbind_ok {A B} (r : res A) (f : A -> res B) b :
  rbind r f = Ok b <-> exists a, r = Ok a /\ f a = Ok b.
Proof.
  destruct r; simpl; split; intros H; try discriminate; eauto;
    try (destruct H as (? & H & _); discriminate).
  destruct H as (? & [= <-] & H); auto.
Qed.

Lemma min_inherit_Z t s r :
  min_inherit Z.ltb t s = Ok r -> forall v, at_least r v <-> at_least t v /\ at_least s v.
Proof.
  unfold at_least. destruct t as [a|], s as [b|]; simpl.
  - destruct (a <? b) eqn:E; [discriminate|]. intros [= <-] v. split.
    + intros H. specialize (H a eq_refl). split; intros m [= <-]; lia.
    + intros [H _]. auto.
  - intros [= <-] v. split; [intros H; split; [auto|discriminate]|tauto].
  - intros [= <-] v. split; [intros H; split; [discriminate|auto]|tauto].
  - intros [= <-] v. split; [intros H; split; discriminate|intros _; discriminate].
Qed.

Lemma max_inherit_Z t s r :
  max_inherit Z.ltb t s = Ok r -> forall v, at_most r v <-> at_most t v /\ at_most s v.
Proof.
  unfold at_most. destruct t as [a|], s as [b|]; simpl.
  - destruct (b <? a) eqn:E; [discriminate|]. intros [= <-] v. split.
    + intros H. specialize (H a eq_refl). split; intros m [= <-]; lia.
    + intros [H _]. auto.
  - intros [= <-] v. split; [intros H; split; [auto|discriminate]|tauto].
  - intros [= <-] v. split; [intros H; split; [discriminate|auto]|tauto].
  - intros [= <-] v. split; [intros H; split; discriminate|intros _; discriminate].
Qed.

Definition opt_not_nan (b : option float64) : Prop := forall m, b = Some m -> not_nan m.

Lemma min_inherit_F t s r :
  opt_not_nan t -> min_inherit SFltb t s = Ok r ->
  forall v, (forall m, r = Some m -> ~ flt v m) <->
            (forall m, t = Some m -> ~ flt v m) /\ (forall m, s = Some m -> ~ flt v m).
Proof.
  intros Hn. destruct t as [a|], s as [b|]; simpl.
  - destruct (SFltb a b) eqn:E; [discriminate|]. apply SFltb_not_flt in E.
    intros [= <-] v. split.
    + intros H. specialize (H a eq_refl). split; intros m [= <-]; auto.
      intros K. apply H. eapply flt_below; eauto; apply Hn; reflexivity.
    + intros [H _]; auto.
  - intros [= <-] v. split; [intros H; split; [auto|discriminate]|tauto].
  - intros [= <-] v. split; [intros H; split; [discriminate|auto]|tauto].
  - intros [= <-] v. split; [intros H; split; discriminate|intros _; discriminate].
Qed.

Lemma max_inherit_F t s r :
  opt_not_nan t -> max_inherit SFltb t s = Ok r ->
  forall v, (forall m, r = Some m -> ~ flt m v) <->
            (forall m, t = Some m -> ~ flt m v) /\ (forall m, s = Some m -> ~ flt m v).
Proof.
  intros Hn. destruct t as [a|], s as [b|]; simpl.
  - destruct (SFltb b a) eqn:E; [discriminate|]. apply SFltb_not_flt in E.
    intros [= <-] v. split.
    + intros H. specialize (H a eq_refl). split; intros m [= <-]; auto.
      intros K. apply H. eapply flt_above; eauto; apply Hn; reflexivity.
    + intros [H _]; auto.
  - intros [= <-] v. split; [intros H; split; [auto|discriminate]|tauto].
  - intros [= <-] v. split; [intros H; split; [discriminate|auto]|tauto].
  - intros [= <-] v. split; [intros H; split; discriminate|intros _; discriminate].
Qed.

Lemma isCompatibleEnum_true s t :
  isCompatibleEnum s t = Ok true ->
  forall v, In v t -> exists e, In e s /\ go_eq e v = Some true.
Proof.
  induction t as [|x t IH]; simpl; [intros _ v []|].
  pose proof (enum_find_cases x s) as K.
  destruct (enum_find x s) as [[]| | |]; try discriminate.
  intros H v [<-|Hv]; auto.
Qed.

Definition enum_has (e : enum) (v : gval) : Prop :=
  forall l, e = Some l -> exists x, In x l /\ go_eq x v = Some true.

Lemma enum_inherit_has t s r :
  enum_inherit t s = Ok r -> forall v, enum_has r v <-> enum_has t v /\ enum_has s v.
Proof.
  unfold enum_has. destruct t as [lt|], s as [ls|]; simpl.
  - destruct (isCompatibleEnum ls lt) as [[]| | |] eqn:E; try discriminate.
    simpl. intros [= <-] v. split.
    + intros H. split; auto. destruct (H lt eq_refl) as (x & Hx & Ex).
      intros l [= <-]. destruct (isCompatibleEnum_true _ _ E x Hx) as (y & Hy & Ey).
      exists y. split; auto. eapply go_eq_trans; eauto.
    + tauto.
  - intros [= <-] v. split; [intros H; split; [auto|discriminate]|tauto].
  - intros [= <-] v. split; [intros H; split; [discriminate|auto]|tauto].
  - intros [= <-] v. split; [intros H; split; discriminate|intros _; discriminate].
Qed.

Lemma int_in_enum_has e z :
  int_range z \/ uint_range z ->
  int_in_enum e z <-> enum_has e (if is_int64 z then GInt z else GUint z).
Proof.
  intros Hr. unfold int_in_enum, enum_has. destruct (is_int64 z) eqn:E.
  - apply is_int64_iff in E. split; intros H l Hl; specialize (H l Hl).
    + eapply enum_ex_iff; [intros x; apply go_eq_int|tauto].
    + left; split; auto. eapply enum_ex_iff in H; [exact H|intros x; apply go_eq_int].
  - apply is_int64_false in E. split; intros H l Hl; specialize (H l Hl).
    + eapply enum_ex_iff; [intros x; apply go_eq_uint|tauto].
    + right; split; auto. eapply enum_ex_iff in H; [exact H|intros x; apply go_eq_uint].
Qed.

Lemma int_denotes_range O v z : oracle_wf O -> gval_wf v -> int_denotes O v z -> int_range z \/ uint_range z.
Proof.
  intros HO Hv H. inversion H; subst; simpl in Hv; auto.
Qed.

Lemma int_denotes_fun O v a b : int_denotes O v a -> int_denotes O v b -> a = b.
Proof.
  intros H1 H2. destruct v; try (inversion H1; inversion H2; subst; congruence).
  apply int_denotes_float in H1, H2. congruence.
Qed.

Lemma int_inherit_inter O t s r v :
  oracle_wf O -> gval_wf v -> int_inherit t s = Ok r ->
  (int_accepts O r v <-> int_accepts O t v /\ int_accepts O s v).
Proof.
  intros HO Hv H. unfold int_inherit in H.
  apply rbind_ok in H as (mn & Hmn & H). apply rbind_ok in H as (mx & Hmx & H).
  apply rbind_ok in H as (en & Hen & H). apply rbind_ok in H as (fm & _ & H).
  injection H as <-. unfold int_accepts; simpl.
  pose proof (min_inherit_Z _ _ _ Hmn) as A. pose proof (max_inherit_Z _ _ _ Hmx) as B.
  pose proof (enum_inherit_has _ _ _ Hen) as C.
  split.
  - intros (z & D & H1 & H2 & H3). pose proof (int_denotes_range _ _ _ HO Hv D) as R.
    rewrite int_in_enum_has in H3 by auto. apply A in H1. apply B in H2. apply C in H3.
    split; exists z; repeat split; auto; try tauto; apply int_in_enum_has; tauto.
  - intros [(z & D & H1 & H2 & H3) (z' & D' & H1' & H2' & H3')].
    rewrite (int_denotes_fun _ _ _ _ D' D) in *.
    pose proof (int_denotes_range _ _ _ HO Hv D) as R.
    rewrite int_in_enum_has in H3, H3' by auto.
    exists z. split; auto. rewrite A, B, int_in_enum_has, C by auto. tauto.
Qed.

Lemma num_enum_has e f :
  (forall l, e = Some l -> exists g, In (GFloat g) l /\ feq g f) <-> enum_has e (GFloat f).
Proof.
  unfold enum_has. split; intros H l Hl; destruct (H l Hl) as (x & H1 & H2).
  - exists (GFloat x). split; auto. apply go_eq_float; eauto.
  - apply go_eq_float in H2 as (g & -> & H2). eauto.
Qed.

Lemma num_denotes_fun v a b : num_denotes v a -> num_denotes v b -> a = b.
Proof. intros H1 H2. inversion H1; subst; inversion H2; subst; reflexivity. Qed.

Lemma num_inherit_inter t s r v :
  opt_not_nan (nf_min t) -> opt_not_nan (nf_max t) -> num_inherit t s = Ok r ->
  (num_accepts r v <-> num_accepts t v /\ num_accepts s v).
Proof.
  intros N1 N2 H. unfold num_inherit in H.
  apply rbind_ok in H as (mn & Hmn & H). apply rbind_ok in H as (mx & Hmx & H).
  apply rbind_ok in H as (en & Hen & H). apply rbind_ok in H as (fm & _ & H).
  injection H as <-. unfold num_accepts; simpl.
  pose proof (min_inherit_F _ _ _ N1 Hmn) as A. pose proof (max_inherit_F _ _ _ N2 Hmx) as B.
  pose proof (enum_inherit_has _ _ _ Hen) as C.
  setoid_rewrite num_enum_has. split.
  - intros (z & D & H1 & H2 & H3). apply A in H1. apply B in H2. apply C in H3.
    split; exists z; tauto.
  - intros [(z & D & H1 & H2 & H3) (z' & D' & H1' & H2' & H3')].
    rewrite (num_denotes_fun _ _ _ D' D) in *.
    exists z. split; auto. rewrite A, B, C. tauto.
Qed.

Lemma str_enum_has e i :
  (forall l, e = Some l -> In (GStr i) l) <-> enum_has e (GStr i).
Proof.
  unfold enum_has. split; intros H l Hl; specialize (H l Hl).
  - eapply enum_ex_iff; [intros x; apply go_eq_str|exact H].
  - eapply enum_ex_iff in H; [exact H|intros x; apply go_eq_str].
Qed.

Lemma str_inherit_inter O t s r v :
  str_inherit t s = Ok r ->
  (sf_pat t = None \/ sf_pat s = None \/ sf_pat t = sf_pat s) ->
  (str_accepts O r v <-> str_accepts O t v /\ str_accepts O s v).
Proof.
  intros H HP. unfold str_inherit in H.
  apply rbind_ok in H as (mn & Hmn & H). apply rbind_ok in H as (mx & Hmx & H).
  apply rbind_ok in H as (en & Hen & H). injection H as <-. unfold str_accepts; simpl.
  pose proof (min_inherit_Z _ _ _ Hmn) as A. pose proof (max_inherit_Z _ _ _ Hmx) as B.
  pose proof (enum_inherit_has _ _ _ Hen) as C.
  assert (forall i, (forall p, (match sf_pat t with None => sf_pat s | p0 => p0 end) = Some p ->
             o_match O p i = true) <->
          (forall p, sf_pat t = Some p -> o_match O p i = true) /\
          (forall p, sf_pat s = Some p -> o_match O p i = true)) as D.
  { intros i. destruct HP as [E|[E|E]].
    - rewrite E. split; [intros H; split; [discriminate|auto]|tauto].
    - rewrite E. destruct (sf_pat t); (split; [intros H; split; [auto|discriminate]|tauto]).
    - rewrite <- E. destruct (sf_pat t); (split; [intros H; split; auto|tauto]). }
  setoid_rewrite str_enum_has. split.
  - intros (i & -> & H1 & H2 & H3 & H4). apply A in H1. apply B in H2. apply D in H3. apply C in H4.
    split; exists i; tauto.
  - intros [(i & -> & H1 & H2 & H3 & H4) (i' & [= <-] & H1' & H2' & H3' & H4')].
    exists i. split; auto. rewrite A, B, C, D. tauto.
Qed.

(** Ignoring patterns, the intersection property holds without hypothesis. *)
Lemma str_inherit_inter_nopat O t s r v :
  str_inherit t s = Ok r ->
  let drop f := StrF (sf_min f) (sf_max f) None (sf_enum f) in
  (str_accepts O (drop r) v <-> str_accepts O (drop t) v /\ str_accepts O (drop s) v).
Proof.
  intros H drop. apply (str_inherit_inter O (drop t) (drop s) (drop r)); [|left; reflexivity].
  unfold str_inherit in *. unfold drop; simpl.
  apply rbind_ok in H as (mn & Hmn & H). apply rbind_ok in H as (mx & Hmx & H).
  apply rbind_ok in H as (en & Hen & H). injection H as <-. simpl.
  rewrite Hmn, Hmx; simpl. rewrite Hen. reflexivity.
Qed.

Lemma file_inherit_inter t s r v :
  file_inherit t s = Ok r -> (file_accepts r v <-> file_accepts t v /\ file_accepts s v).
Proof.
  intros H. unfold file_inherit in H.
  apply rbind_ok in H as (mn & Hmn & H). apply rbind_ok in H as (mx & Hmx & H).
  apply rbind_ok in H as (en & _ & H). injection H as <-. unfold file_accepts; simpl.
  pose proof (min_inherit_Z _ _ _ Hmn) as A. pose proof (max_inherit_Z _ _ _ Hmx) as B.
  split.
  - intros (i & -> & H1 & H2). apply A in H1. apply B in H2. split; exists i; tauto.
  - intros [(i & -> & H1 & H2) (i' & [= <-] & H1' & H2')]. exists i. rewrite A, B. tauto.
Qed.

Lemma bool_enum_has e b :
  (forall l, e = Some l -> In (GBool b) l) <-> enum_has e (GBool b).
Proof.
  unfold enum_has. split; intros H l Hl; specialize (H l Hl).
  - eapply enum_ex_iff; [intros x; apply go_eq_bool|exact H].
  - eapply enum_ex_iff in H; [exact H|intros x; apply go_eq_bool].
Qed.

Lemma bool_inherit_inter t s r v :
  bool_inherit t s = Ok r -> (bool_accepts r v <-> bool_accepts t v /\ bool_accepts s v).
Proof.
  intros H. pose proof (enum_inherit_has _ _ _ H) as C. unfold bool_accepts.
  setoid_rewrite bool_enum_has. split.
  - intros (b & -> & K). apply C in K. split; exists b; tauto.
  - intros [(b & -> & K) (b' & [= <-] & K')]. exists b. rewrite C. tauto.
Qed.

(** The accepted inheritance of datetime formats. *)
Lemma datetime_inherit_inter O t s r v :
  datetime_inherit t s = Ok r ->
  (t = None \/ s <> None) ->
  (datetime_accepts O r v -> datetime_accepts O s v).
Proof.
  intros H HP. destruct t as [a|], s as [b|]; simpl in H.
  - destruct (String.eqb_spec a b) as [->|N]; [|discriminate]. now injection H as <-.
  - destruct HP as [E|E]; congruence.
  - now injection H as <-.
  - now injection H as <-.
Qed.

(** ** When inheritance is refused *)

Lemma min_inherit_err t s : min_inherit Z.ltb t s = Err <-> min_relaxed t s.
Proof.
  unfold min_relaxed. destruct t as [a|], s as [b|]; simpl;
    try (split; [discriminate|intros (x & y & H1 & H2 & H3); discriminate]).
  destruct (a <? b) eqn:E; split; intros H; try discriminate.
  - exists a, b. repeat split; lia.
  - reflexivity.
  - destruct H as (x & y & [= <-] & [= <-] & H). lia.
Qed.

Lemma max_inherit_err t s : max_inherit Z.ltb t s = Err <-> max_relaxed t s.
Proof.
  unfold max_relaxed. destruct t as [a|], s as [b|]; simpl;
    try (split; [discriminate|intros (x & y & H1 & H2 & H3); discriminate]).
  destruct (b <? a) eqn:E; split; intros H; try discriminate.
  - exists a, b. repeat split; lia.
  - reflexivity.
  - destruct H as (x & y & [= <-] & [= <-] & H). lia.
Qed.

Lemma min_inherit_total {A} (l : A -> A -> bool) t s :
  (exists r, min_inherit l t s = Ok r) \/ min_inherit l t s = Err.
Proof. destruct t, s; simpl; eauto. destruct (l a a0); eauto. Qed.
Lemma max_inherit_total {A} (l : A -> A -> bool) t s :
  (exists r, max_inherit l t s = Ok r) \/ max_inherit l t s = Err.
Proof. destruct t, s; simpl; eauto. destruct (l a0 a); eauto. Qed.

Lemma isCompatibleEnum_cases s t :
  Forall comparable t ->
  match isCompatibleEnum s t with
  | Ok true => forall v, In v t -> exists e, In e s /\ go_eq e v = Some true
  | Ok false => exists v, In v t /\ forall w, In w s -> go_eq w v <> Some true
  | _ => False
  end.
Proof.
  induction 1 as [|x t Hx Ht IH]; simpl; [intros v []|].
  pose proof (enum_find_cases x s) as K. destruct (enum_find_ok x s Hx) as [b Hb].
  rewrite Hb in *. destruct b.
  - destruct (isCompatibleEnum s t) as [[]| | |]; try tauto.
    + intros v [<-|Hv]; auto.
    + destruct IH as (v & H1 & H2). exists v. auto.
  - exists x. split; auto. intros w Hw. rewrite (K w Hw). discriminate.
Qed.

Lemma enum_inherit_err t s :
  enum_comparable t -> (enum_inherit t s = Err <-> enum_escapes t s).
Proof.
  intros Hc. unfold enum_escapes. destruct t as [lt|], s as [ls|]; simpl;
    try (split; [discriminate|intros (x & y & H1 & H2 & H3); discriminate]).
  pose proof (isCompatibleEnum_cases ls lt (Hc lt eq_refl)) as K.
  destruct (isCompatibleEnum ls lt) as [[]| | |]; try tauto; simpl; split; intros H; try discriminate.
  - destruct H as (x & y & [= <-] & [= <-] & v & H1 & H2).
    destruct (K v H1) as (e & H3 & H4). destruct (H2 e H3 H4).
  - exists lt, ls. auto.
  - reflexivity.
Qed.

Lemma enum_inherit_total t s :
  enum_comparable t -> (exists r, enum_inherit t s = Ok r) \/ enum_inherit t s = Err.
Proof.
  intros Hc. destruct t as [lt|], s as [ls|]; simpl; eauto.
  pose proof (isCompatibleEnum_cases ls lt (Hc lt eq_refl)) as K.
  destruct (isCompatibleEnum ls lt) as [[]| | |]; try tauto; simpl; eauto.
Qed.

Lemma str_inherit_err t s :
  enum_comparable (sf_enum t) ->
  (str_inherit t s = Err <->
   min_relaxed (sf_min t) (sf_min s) \/ max_relaxed (sf_max t) (sf_max s)
   \/ enum_escapes (sf_enum t) (sf_enum s)).
Proof.
  intros Hc. rewrite <- min_inherit_err, <- max_inherit_err, <- enum_inherit_err by auto.
  unfold str_inherit.
  destruct (min_inherit_total Z.ltb (sf_min t) (sf_min s)) as [[a Ea]|Ea]; rewrite Ea; simpl; [|tauto].
  destruct (max_inherit_total Z.ltb (sf_max t) (sf_max s)) as [[b Eb]|Eb]; rewrite Eb; simpl; [|tauto].
  destruct (enum_inherit_total (sf_enum t) (sf_enum s) Hc) as [[c Ec]|Ec]; rewrite Ec; simpl; [|tauto].
  split; [discriminate|]. intros [H|[H|H]]; discriminate.
Qed.

Lemma format_width_code f w : format_width f w ->
  w = match int_format_code0 f with 0 => 8 | 1 => 16 | 2 => 32 | _ => 64 end
  /\ In (int_format_code0 f) [0; 1; 2; 3].
Proof.
  intros H. destruct H; try (vm_compute; split; [reflexivity|tauto]).
  assert (E : int_format_code f = None).
  { unfold int_format_code.
    destruct (String.eqb_spec f "int8"); [subst; exfalso; apply H; simpl; tauto|].
    destruct (String.eqb_spec f "int16"); [subst; exfalso; apply H; simpl; tauto|].
    destruct (String.eqb_spec f "int32"); [subst; exfalso; apply H; simpl; tauto|].
    destruct (String.eqb_spec f "int"); [subst; exfalso; apply H; simpl; tauto|].
    destruct (String.eqb_spec f "int64"); [subst; exfalso; apply H; simpl; tauto|].
    destruct (String.eqb_spec f "long"); [subst; exfalso; apply H; simpl; tauto|reflexivity]. }
  unfold int_format_code0. rewrite E. simpl. tauto.
Qed.

Lemma format_width_ex f : exists w, format_width f w.
Proof.
  destruct (in_dec string_dec f known_int_formats) as [H|H]; [|eexists; now apply fw_unknown].
  simpl in H. repeat (destruct H as [<-|H]; [eexists; constructor|]). destruct H.
Qed.

Lemma format_width_neq f g :
  int_format_code0 f <> int_format_code0 g <->
  exists w x, format_width f w /\ format_width g x /\ w <> x.
Proof.
  split.
  - intros H. destruct (format_width_ex f) as [w W], (format_width_ex g) as [x X].
    exists w, x. repeat split; auto. intros <-.
    destruct (format_width_code _ _ W) as [A1 A2], (format_width_code _ _ X) as [B1 B2].
    simpl in A2, B2.
    destruct A2 as [A|[A|[A|[A|[]]]]], B2 as [B|[B|[B|[B|[]]]]]; rewrite <- A in *; rewrite <- B in *; congruence.
  - intros (w & x & W & X & N) E. apply N.
    destruct (format_width_code _ _ W) as [-> _], (format_width_code _ _ X) as [-> _]. now rewrite E.
Qed.

Lemma int_inherit_err t s :
  enum_comparable (if_enum t) ->
  (int_inherit t s = Err <->
   min_relaxed (if_min t) (if_min s) \/ max_relaxed (if_max t) (if_max s)
   \/ enum_escapes (if_enum t) (if_enum s)
   \/ (exists f g, if_format t = Some f /\ if_format s = Some g
         /\ exists w x, format_width f w /\ format_width g x /\ w <> x)).
Proof.
  intros Hc. rewrite <- min_inherit_err, <- max_inherit_err, <- enum_inherit_err by auto.
  unfold int_inherit.
  destruct (min_inherit_total Z.ltb (if_min t) (if_min s)) as [[a Ea]|Ea]; rewrite Ea; simpl; [|tauto].
  destruct (max_inherit_total Z.ltb (if_max t) (if_max s)) as [[b Eb]|Eb]; rewrite Eb; simpl; [|tauto].
  destruct (enum_inherit_total (if_enum t) (if_enum s) Hc) as [[c Ec]|Ec]; rewrite Ec; simpl; [|tauto].
  destruct (if_format t) as [f|] eqn:F, (if_format s) as [g|] eqn:G; simpl;
    try (split; [discriminate|intros [H|[H|[H|(x & y & H1 & H2 & _)]]]; discriminate]).
  destruct (int_format_code0 f =? int_format_code0 g) eqn:E; simpl.
  - split; [discriminate|]. intros [H|[H|[H|(x & y & [= <-] & [= <-] & H)]]]; try discriminate. apply format_width_neq in H. lia.
  - split; auto. intros _. right; right; right. exists f, g. split; [reflexivity|]. split; [reflexivity|]. apply format_width_neq. lia.
Qed.

Lemma min_inherit_err_F t s :
  min_inherit SFltb t s = Err <-> exists a b, t = Some a /\ s = Some b /\ flt a b.
Proof.
  destruct t as [a|], s as [b|]; simpl;
    try (split; [discriminate|intros (x & y & H1 & H2 & H3); discriminate]).
  destruct (SFltb a b) eqn:E; split; intros H; try discriminate.
  - exists a, b. repeat split. now apply SFltb_flt.
  - reflexivity.
  - destruct H as (x & y & [= <-] & [= <-] & H). apply SFltb_flt in H. congruence.
Qed.

Lemma max_inherit_err_F t s :
  max_inherit SFltb t s = Err <-> exists a b, t = Some a /\ s = Some b /\ flt b a.
Proof.
  destruct t as [a|], s as [b|]; simpl;
    try (split; [discriminate|intros (x & y & H1 & H2 & H3); discriminate]).
  destruct (SFltb b a) eqn:E; split; intros H; try discriminate.
  - exists a, b. repeat split. now apply SFltb_flt.
  - reflexivity.
  - destruct H as (x & y & [= <-] & [= <-] & H). apply SFltb_flt in H. congruence.
Qed.

Lemma num_inherit_err t s :
  enum_comparable (nf_enum t) ->
  (num_inherit t s = Err <->
   (exists a b, nf_min t = Some a /\ nf_min s = Some b /\ flt a b)
   \/ (exists a b, nf_max t = Some a /\ nf_max s = Some b /\ flt b a)
   \/ enum_escapes (nf_enum t) (nf_enum s)
   \/ (exists f g, nf_format t = Some f /\ nf_format s = Some g /\ f <> g)).
Proof.
  intros Hc. rewrite <- min_inherit_err_F, <- max_inherit_err_F, <- enum_inherit_err by auto.
  unfold num_inherit.
  destruct (min_inherit_total SFltb (nf_min t) (nf_min s)) as [[a Ea]|Ea]; rewrite Ea; simpl; [|tauto].
  destruct (max_inherit_total SFltb (nf_max t) (nf_max s)) as [[b Eb]|Eb]; rewrite Eb; simpl; [|tauto].
  destruct (enum_inherit_total (nf_enum t) (nf_enum s) Hc) as [[c Ec]|Ec]; rewrite Ec; simpl; [|tauto].
  destruct (nf_format t) as [f|] eqn:F, (nf_format s) as [g|] eqn:G; simpl;
    try (split; [discriminate|intros [H|[H|[H|(x & y & H1 & H2 & _)]]]; discriminate]).
  destruct (String.eqb_spec f g) as [->|N]; simpl.
  - split; [discriminate|]. intros [H|[H|[H|(x & y & [= <-] & [= <-] & H)]]]; try discriminate. congruence.
  - split; auto. intros _. right; right; right. eauto.
Qed.

Lemma file_inherit_err t s :
  enum_comparable (ff_types t) ->
  (file_inherit t s = Err <->
   min_relaxed (ff_min t) (ff_min s) \/ max_relaxed (ff_max t) (ff_max s)
   \/ enum_escapes (ff_types t) (ff_types s)).
Proof.
  intros Hc. rewrite <- min_inherit_err, <- max_inherit_err, <- enum_inherit_err by auto.
  unfold file_inherit.
  destruct (min_inherit_total Z.ltb (ff_min t) (ff_min s)) as [[a Ea]|Ea]; rewrite Ea; simpl; [|tauto].
  destruct (max_inherit_total Z.ltb (ff_max t) (ff_max s)) as [[b Eb]|Eb]; rewrite Eb; simpl; [|tauto].
  destruct (enum_inherit_total (ff_types t) (ff_types s) Hc) as [[c Ec]|Ec]; rewrite Ec; simpl; [|tauto].
  split; [discriminate|]. intros [H|[H|H]]; discriminate.
Qed.

Lemma bool_inherit_err t s :
  enum_comparable t -> (bool_inherit t s = Err <-> enum_escapes t s).
Proof. exact (enum_inherit_err t s). Qed.

Lemma datetime_inherit_err t s :
  datetime_inherit t s = Err <-> exists f g, t = Some f /\ s = Some g /\ f <> g.
Proof.
  destruct t as [a|], s as [b|]; simpl;
    try (split; [discriminate|intros (x & y & H1 & H2 & H3); discriminate]).
  destruct (String.eqb_spec a b) as [->|N]; split; intros H; try discriminate; eauto.
  destruct H as (x & y & [= <-] & [= <-] & H). congruence.
Qed.

(** Number enum with float members only. *)
Lemma num_float_member s v f g l :
  num_denotes v f -> nf_enum s = Some l -> In (GFloat g) l -> feq g f ->
  (forall m, nf_min s = Some m -> ~ flt f m) -> (forall m, nf_max s = Some m -> ~ flt m f) ->
  num_validate s v = Ok tt.
Proof.
  intros D E I Q H1 H2. apply num_validate_iff. exists f. repeat split; auto.
  intros l' E'. rewrite E in E'. injection E' as <-. eauto.
Qed.

Lemma int_inherit_bounds t s r :
  int_inherit t s = Ok r ->
  (forall z, at_least (if_min r) z -> at_least (if_min s) z)
  /\ (forall z, at_most (if_max r) z -> at_most (if_max s) z).
Proof.
  intros H. unfold int_inherit in H.
  apply rbind_ok in H as (mn & Hmn & H). apply rbind_ok in H as (mx & Hmx & H).
  apply rbind_ok in H as (en & Hen & H). apply rbind_ok in H as (fm & _ & H).
  injection H as <-. simpl. split; intros z Hz.
  - now apply (min_inherit_Z _ _ _ Hmn) in Hz.
  - now apply (max_inherit_Z _ _ _ Hmx) in Hz.
Qed.

Lemma kept_facets :
  (forall t s r, int_inherit t s = Ok r ->
     kept (if_mult t) (if_mult s) (if_mult r) /\ kept (if_format t) (if_format s) (if_format r)
     /\ (if_min t = None -> if_min r = if_min s) /\ (if_max t = None -> if_max r = if_max s)
     /\ (if_enum t = None -> if_enum r = if_enum s))
  /\ (forall t s r, num_inherit t s = Ok r ->
     kept (nf_mult s) (nf_mult t) (nf_mult r) /\ kept (nf_format t) (nf_format s) (nf_format r)
     /\ (nf_min t = None -> nf_min r = nf_min s) /\ (nf_max t = None -> nf_max r = nf_max s)
     /\ (nf_enum t = None -> nf_enum r = nf_enum s))
  /\ (forall t s r, str_inherit t s = Ok r ->
     kept (sf_pat t) (sf_pat s) (sf_pat r)
     /\ (sf_min t = None -> sf_min r = sf_min s) /\ (sf_max t = None -> sf_max r = sf_max s)
     /\ (sf_enum t = None -> sf_enum r = sf_enum s))
  /\ (forall t s r, datetime_inherit t s = Ok r -> kept t s r).
Proof.
  unfold kept. split; [|split; [|split]].
  - intros [mn mx mu fm en] [mn' mx' mu' fm' en'] r. unfold int_inherit; simpl.
    destruct (min_inherit _ mn mn') as [a| | |] eqn:A; simpl; try discriminate.
    destruct (max_inherit _ mx mx') as [b| | |] eqn:B; simpl; try discriminate.
    destruct (enum_inherit en en') as [c| | |] eqn:C; simpl; try discriminate.
    intros H.
    assert (E : exists d, r = IntF a b (match mu with None => mu' | m => m end) d c
              /\ ((forall x, fm = Some x -> d = Some x) /\ (fm = None -> d = fm'))).
    { destruct mu as [q|], fm as [f|], fm' as [g|]; simpl in H;
        try (destruct (_ =? _); simpl in H; [|discriminate]);
        injection H as <-; eexists; (split; [reflexivity|]); split; congruence. }
    destruct E as (d & -> & D1). simpl. split; [|split; [exact D1|]].
    + destruct mu; split; congruence.
    + repeat split; intros ->; simpl in *; [destruct mn'|destruct mx'|destruct en']; simpl in *; congruence.
  - intros [mn mx mu fm en] [mn' mx' mu' fm' en'] r. unfold num_inherit; simpl.
    destruct (min_inherit SFltb mn mn') as [a| | |] eqn:A; simpl; try discriminate.
    destruct (max_inherit SFltb mx mx') as [b| | |] eqn:B; simpl; try discriminate.
    destruct (enum_inherit en en') as [c| | |] eqn:C; simpl; try discriminate.
    intros H.
    assert (E : exists d, r = NumF a b (match mu' with None => mu | m => m end) d c
              /\ ((forall x, fm = Some x -> d = Some x) /\ (fm = None -> d = fm'))).
    { destruct mu' as [q|], fm as [f|], fm' as [g|]; simpl in H;
        try (destruct (String.eqb f g); simpl in H; [|discriminate]);
        injection H as <-; eexists; (split; [reflexivity|]); split; congruence. }
    destruct E as (d & -> & D1). simpl. split; [|split; [exact D1|]].
    + destruct mu'; split; congruence.
    + repeat split; intros ->; simpl in *; [destruct mn'|destruct mx'|destruct en']; simpl in *; congruence.
  - intros [mn mx mu en] [mn' mx' mu' en'] r. unfold str_inherit; simpl.
    destruct (min_inherit _ mn mn') as [a| | |] eqn:A; simpl; try discriminate.
    destruct (max_inherit _ mx mx') as [b| | |] eqn:B; simpl; try discriminate.
    destruct (enum_inherit en en') as [c| | |] eqn:C; simpl; try discriminate.
    intros [= <-]. simpl. split; [destruct mu; split; congruence|].
    repeat split; intros ->; simpl in *; [destruct mn'|destruct mx'|destruct en']; simpl in *; congruence.
  - intros [f|] [g|] r; unfold datetime_inherit; simpl; try (destruct (String.eqb f g); [|discriminate]);
      intros [= <-]; split; congruence.
Qed.
