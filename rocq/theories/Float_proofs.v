(** Lemmas about the conversion of integers to doubles (used by Props_Scalars). *)
From Coq Require Import ZArith Lia SpecFloat Bool.
From Verif Require Import Base Spec_Scalars Scalars.
Open Scope Z_scope.
Lemma digits_spec m : 2 ^ (Zpos (digits2_pos m) - 1) <= Zpos m < 2 ^ Zpos (digits2_pos m).
Proof.
  induction m as [m IH|m IH|]; cbn [digits2_pos]; [| |cbn; lia]; rewrite Pos2Z.inj_succ.
  - replace (Z.succ (Zpos (digits2_pos m)) - 1) with (Z.succ (Zpos (digits2_pos m) - 1)) by lia. rewrite !Z.pow_succ_r by lia. lia.
  - replace (Z.succ (Zpos (digits2_pos m)) - 1) with (Z.succ (Zpos (digits2_pos m) - 1)) by lia. rewrite !Z.pow_succ_r by lia. lia.
Qed.
Lemma digits_unique m d : 0 < d -> 2 ^ (d - 1) <= Zpos m < 2 ^ d -> Zpos (digits2_pos m) = d.
Proof.
  intros P H. pose proof (digits_spec m) as D.
  destruct (Z.lt_trichotomy (Zpos (digits2_pos m)) d) as [L|[E|L]]; [|exact E|].
  - assert (2 ^ Zpos (digits2_pos m) <= 2 ^ (d - 1)) by (apply Z.pow_le_mono_r; lia). lia.
  - assert (2 ^ d <= 2 ^ (Zpos (digits2_pos m) - 1)) by (apply Z.pow_le_mono_r; lia). lia.
Qed.
Lemma shift_value d m : Zpos (shift_pos d m) = Zpos m * 2 ^ Zpos d.
Proof. rewrite Zpower.shift_pos_correct. rewrite Z.pow_pos_fold. lia. Qed.
Lemma round_53 sx m : Zpos m < 2 ^ 53 ->
  exists k, binary_round 53 1024 sx m 0 = S754_finite sx k (Zpos (digits2_pos m) - 53) /\ Zpos k = Zpos m * 2 ^ (53 - Zpos (digits2_pos m)) /\ Zpos (digits2_pos k) = 53.
Proof.
  intros B. pose proof (digits_spec m) as D. set (d := Zpos (digits2_pos m)) in *.
  assert (Ld : d <= 53). { destruct (Z.le_gt_cases d 53) as [L|L]; [exact L|]. assert (2 ^ 53 <= 2 ^ (d - 1)) by (apply Z.pow_le_mono_r; lia). lia. }
  assert (Pd : 0 < d) by (unfold d; lia).
  assert (Aux : forall k, Zpos k = Zpos m * 2 ^ (53 - d) -> binary_round_aux 53 1024 sx (Zpos k) (d - 53) loc_Exact = S754_finite sx k (d - 53) /\ Zpos (digits2_pos k) = 53).
  { intros k Ek. assert (Dk : Zpos (digits2_pos k) = 53).
    { apply digits_unique; [lia|]. rewrite Ek. replace (53 - 1) with ((d - 1) + (53 - d)) by lia. replace (2 ^ 53) with (2 ^ (d + (53 - d))) by (f_equal; lia).
      rewrite !Z.pow_add_r by lia. assert (0 < 2 ^ (53 - d)) by (apply Z.pow_pos_nonneg; lia). nia. }
    split; [|exact Dk]. unfold binary_round_aux, shr_fexp. cbn [Zdigits2 shr_record_of_loc]. rewrite Dk. unfold fexp, emin.
    replace (Z.max (53 + (d - 53) - 53) (3 - 1024 - 53) - (d - 53)) with 0 by lia. cbn [shr shr_m loc_of_shr_record round_nearest_even Zdigits2 shr_record_of_loc]. rewrite Dk.
    replace (Z.max (53 + (d - 53) - 53) (3 - 1024 - 53) - (d - 53)) with 0 by lia. cbn [shr shr_m].
    replace (d - 53 <=? 1024 - 53) with true; [reflexivity|]. symmetry. apply Z.leb_le. lia. }
  unfold binary_round, shl_align. fold d. unfold fexp at 1 2, emin.
  replace (Z.max (d + 0 - 53) (3 - 1024 - 53)) with (d - 53) by lia. replace (d - 53 - 0) with (d - 53) by lia.
  destruct (d - 53) as [|q|q] eqn:Q; [|lia|].
  - exists m. destruct (Aux m) as [A1 A2]; [replace (53 - d) with 0 by lia; lia|]. split; [exact A1|]. split; [replace (53 - d) with 0 by lia; lia|exact A2].
  - exists (shift_pos q m). assert (Ek : Zpos (shift_pos q m) = Zpos m * 2 ^ (53 - d)) by (rewrite shift_value; do 2 f_equal; lia).
    destruct (Aux _ Ek) as [A1 A2]. split; [exact A1|]. split; [exact Ek|exact A2].
Qed.
Lemma of_Z_exact z : Z.abs z < 2 ^ 53 -> float_exact (float_of_Z z) z.
Proof.
  intros B. unfold float_of_Z, binary_normalize. destruct z as [|m|m]; [reflexivity| |].
  - destruct (round_53 false m) as (k & E & K & _); [lia|]. rewrite E. unfold float_exact. pose proof (digits_spec m) as D.
    set (d := Zpos (digits2_pos m)) in *. destruct (Z.eq_dec d 53) as [X|X].
    + left. split; [lia|]. rewrite K, X. cbn. lia.
    + assert (d <= 53). { destruct (Z.le_gt_cases d 53) as [L|L]; [exact L|]. assert (2 ^ 53 <= 2 ^ (d - 1)) by (apply Z.pow_le_mono_r; lia). lia. }
      right. split; [lia|]. rewrite K. replace (- (d - 53)) with (53 - d) by lia. lia.
  - destruct (round_53 true m) as (k & E & K & _); [lia|]. rewrite E. unfold float_exact. pose proof (digits_spec m) as D.
    set (d := Zpos (digits2_pos m)) in *. destruct (Z.eq_dec d 53) as [X|X].
    + left. split; [lia|]. rewrite K, X. cbn. lia.
    + assert (d <= 53). { destruct (Z.le_gt_cases d 53) as [L|L]; [exact L|]. assert (2 ^ 53 <= 2 ^ (d - 1)) by (apply Z.pow_le_mono_r; lia). lia. }
      right. split; [lia|]. rewrite K. replace (- (d - 53)) with (53 - d) by lia. lia.
Qed.
Lemma mant_compare m n k l : Zpos m < 2 ^ 53 -> Zpos n < 2 ^ 53 ->
  Zpos k = Zpos m * 2 ^ (53 - Zpos (digits2_pos m)) -> Zpos l = Zpos n * 2 ^ (53 - Zpos (digits2_pos n)) ->
  match Z.compare (Zpos (digits2_pos m) - 53) (Zpos (digits2_pos n) - 53) with Lt => Lt | Gt => Gt | Eq => Pos.compare_cont Eq k l end = (Zpos m ?= Zpos n).
Proof.
  intros Bm Bn K L. pose proof (digits_spec m) as D. pose proof (digits_spec n) as F.
  set (d := Zpos (digits2_pos m)) in *. set (f := Zpos (digits2_pos n)) in *.
  destruct (Z.compare_spec (d - 53) (f - 53)) as [X|X|X].
  - assert (d = f) as Y by lia. rewrite Y in K. change (Pos.compare_cont Eq k l) with (Zpos k ?= Zpos l). rewrite K, L.
    assert (f <= 53). { destruct (Z.le_gt_cases f 53) as [Q|Q]; [exact Q|]. assert (2 ^ 53 <= 2 ^ (f - 1)) by (apply Z.pow_le_mono_r; lia). lia. }
    assert (0 < 2 ^ (53 - f)) by (apply Z.pow_pos_nonneg; lia). symmetry. rewrite (Z.mul_comm (Zpos m)), (Z.mul_comm (Zpos n)). apply Zmult_compare_compat_l. lia.
  - symmetry. apply Z.compare_lt_iff. assert (2 ^ d <= 2 ^ (f - 1)) by (apply Z.pow_le_mono_r; lia). lia.
  - symmetry. apply Z.compare_gt_iff. assert (2 ^ f <= 2 ^ (d - 1)) by (apply Z.pow_le_mono_r; lia). lia.
Qed.
Lemma of_Z_compare a b : Z.abs a < 2 ^ 53 -> Z.abs b < 2 ^ 53 -> SFcompare (float_of_Z a) (float_of_Z b) = Some (a ?= b).
Proof.
  intros A B. unfold float_of_Z, binary_normalize. destruct a as [|m|m], b as [|n|n]; try reflexivity.
  - destruct (round_53 false n) as (l & -> & _); [lia|]. reflexivity.
  - destruct (round_53 true n) as (l & -> & _); [lia|]. reflexivity.
  - destruct (round_53 false m) as (l & -> & _); [lia|]. reflexivity.
  - destruct (round_53 false m) as (k & -> & K & _); [lia|]. destruct (round_53 false n) as (l & -> & L & _); [lia|]. cbn [SFcompare]. f_equal. apply mant_compare; auto; lia.
  - destruct (round_53 false m) as (k & -> & K & _); [lia|]. destruct (round_53 true n) as (l & -> & L & _); [lia|]. reflexivity.
  - destruct (round_53 true m) as (k & -> & K & _); [lia|]. reflexivity.
  - destruct (round_53 true m) as (k & -> & K & _); [lia|]. destruct (round_53 false n) as (l & -> & L & _); [lia|]. reflexivity.
  - destruct (round_53 true m) as (k & -> & K & _); [lia|]. destruct (round_53 true n) as (l & -> & L & _); [lia|]. cbn [SFcompare]. f_equal.
    change (Zneg m ?= Zneg n) with (CompOpp (Zpos m ?= Zpos n)). rewrite <- (mant_compare m n k l) by (auto; lia).
    destruct (Z.compare _ _); reflexivity.
Qed.
Lemma num_integers a b z : Z.abs a < 2 ^ 53 -> Z.abs b < 2 ^ 53 -> Z.abs z < 2 ^ 53 ->
  num_accepts (NumF (Some (float_of_Z a)) (Some (float_of_Z b)) None None None) (GInt z) <-> a <= z <= b.
Proof.
  intros A B Z'. unfold num_accepts, flt; cbn [nf_min nf_max nf_enum]. split.
  - intros (f & D & L & U & _). inversion D; subst. specialize (L _ eq_refl). specialize (U _ eq_refl). rewrite of_Z_compare in L, U by assumption.
    split; apply Z.nlt_ge; intros X; [apply L|apply U]; f_equal; apply Z.compare_lt_iff; exact X.
  - intros [L U]. exists (float_of_Z z). split; [exact (nd_int z)|]; split; [|split; [|discriminate]]; intros m E; injection E as <-; rewrite of_Z_compare by assumption; intros X; injection X as X; apply (proj1 (Z.compare_lt_iff _ _)) in X; clear - X L U; lia.
Qed.
