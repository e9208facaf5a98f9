(** Lemmas about [Validate.v]. *)
From Coq Require Import ZArith List String Bool Lia Permutation.
From Coq Require Import Floats.SpecFloat.
From Verif Require Import Base Scalars Spec_Scalars Scalars_proofs Heap Validate Spec_Validate.
Import ListNotations.
Open Scope string_scope.
Open Scope Z_scope.

(** * The API view: Validate returns nil / returns an error / returns *)
Definition returns_nil O h a v := exists n, validate n O h a v = Ok tt.
Definition returns_error O h a v := exists n, validate n O h a v = Err.
Definition returns O h a v := returns_nil O h a v \/ returns_error O h a v.

(** * The specification is a fixpoint *)
Lemma shape_accepts_mono O h (P Q : addr -> gval -> Prop) sh v :
  (forall b w, P b w -> Q b w) -> shape_accepts O h P sh v -> shape_accepts O h Q sh v.
Proof.
  intros HPQ. destruct sh; cbn [shape_accepts]; auto.
  - intros (l & E & A & B & C & D). exists l. intuition eauto.
  - intros (kvs & ps & pps & E & A1 & A2 & A3 & A4 & A5 & A6 & A7).
    exists kvs, ps, pps. repeat (split; [solve [eauto]|]).
    intros k x Hin Hn. destruct (A7 k x Hin Hn) as [B1 B2]. split; [exact B1|].
    destruct B2 as [B2|(k' & p & C1 & C2 & C3)]; [left; exact B2|].
    right. exists k', p. auto.
  - intros (l & m & E & A & B). exists l, m. auto.
Qed.

Lemma step_mono O h (P Q : addr -> gval -> Prop) a v :
  (forall b w, P b w -> Q b w) -> step O h P a v -> step O h Q a v.
Proof.
  intros HPQ (sh & A & B). exists sh. split; [exact A|].
  eapply shape_accepts_mono; eauto.
Qed.

Lemma valid_fold O h a v : step O h (valid O h) a v -> valid O h a v.
Proof.
  intros H P HP. apply HP. eapply step_mono; [|exact H].
  intros b w Hb. apply Hb. exact HP.
Qed.

Lemma valid_unfold O h a v : valid O h a v -> step O h (valid O h) a v.
Proof.
  intros H. apply H. intros b w Hb. eapply step_mono; [|exact Hb].
  intros c x Hc. apply valid_fold. exact Hc.
Qed.

Lemma valid_iff O h a v : valid O h a v <-> step O h (valid O h) a v.
Proof. split; [apply valid_unfold|apply valid_fold]. Qed.

Lemma shape_at_fun h a s1 s2 : shape_at h a s1 -> shape_at h a s2 -> s1 = s2.
Proof. intros (b & A & B) (b' & A' & B'). congruence. Qed.

Lemma props_of_fun h o p q : props_of h o p -> props_of h o q -> p = q.
Proof.
  intros [[A B]|(m & A & B)] [[C D]|(m' & C & D)]; try congruence.
Qed.

Lemma opt_props_of h o ps : opt_props h o = Some ps <-> props_of h o ps.
Proof.
  unfold opt_props, props_of. destruct o as [m|]; cbv iota beta; split.
  - intros H. right. eauto.
  - intros [[A _]|(m' & A & B)]; [discriminate|]. congruence.
  - intros H. injection H as <-. left. split; reflexivity.
  - intros [[_ ->]|(m' & A & B)]; [reflexivity|discriminate].
Qed.

(** * Loops *)
Lemma item_hash_some O x k :
  item_hash O x = Some k <-> exists d, o_json O x = Some d /\ k = o_hash O d.
Proof.
  unfold item_hash. destruct (o_json O x) as [d|]; split.
  - intros H. exists d. split; congruence.
  - intros (e & A & B). congruence.
  - discriminate.
  - intros (e & A & B). discriminate.
Qed.

(** Hashes seen so far: the result is the seen set extended with the hashes of
    the items, without repetitions. *)
Definition hashes_of (O : oracle) (l : list gval) (ks : list Z) : Prop :=
  Forall2 (fun x k => item_hash O x = Some k) l ks.

Fixpoint add_all (ks seen : list Z) : list Z :=
  match ks with [] => seen | k :: ks' => add_all ks' (hash_add k seen) end.

Lemma hash_add_in x l y : In y (hash_add x l) <-> y = x \/ In y l.
Proof.
  unfold hash_add. destruct (existsb (Z.eqb x) l) eqn:E.
  - apply existsb_exists in E. destruct E as (z & A & B). apply Z.eqb_eq in B. subst z.
    split; [auto|intros [->|]; auto].
  - simpl. split; intros [A|A]; auto.
Qed.

Lemma hash_add_len_le x l : (List.length (hash_add x l) <= S (List.length l))%nat.
Proof. unfold hash_add. destruct (existsb _ _); simpl; lia. Qed.

Lemma hash_add_len x l : List.length (hash_add x l) = S (List.length l) <-> ~ In x l.
Proof.
  unfold hash_add. destruct (existsb (Z.eqb x) l) eqn:E.
  - apply existsb_exists in E. destruct E as (z & A & B). apply Z.eqb_eq in B. subst z.
    split; [lia|tauto].
  - simpl. split; [intros _ K|reflexivity].
    assert (existsb (Z.eqb x) l = true) by (apply existsb_exists; exists x; split; [exact K|apply Z.eqb_refl]).
    congruence.
Qed.

Lemma add_all_len_le ks : forall seen,
  (List.length (add_all ks seen) <= List.length ks + List.length seen)%nat.
Proof.
  induction ks as [|k ks IH]; intros seen; simpl; [lia|].
  pose proof (IH (hash_add k seen)). pose proof (hash_add_len_le k seen). lia.
Qed.

Lemma add_all_len ks : forall seen,
  (List.length (add_all ks seen) = List.length ks + List.length seen)%nat <->
  NoDup ks /\ forall k, In k ks -> ~ In k seen.
Proof.
  induction ks as [|k ks IH]; intros seen; simpl.
  - split; [|reflexivity]. intros _. split; [constructor|tauto].
  - pose proof (add_all_len_le ks (hash_add k seen)) as L.
    pose proof (hash_add_len_le k seen) as L2.
    split.
    + intros H.
      assert (E : List.length (hash_add k seen) = S (List.length seen)) by lia.
      assert (E2 : (List.length (add_all ks (hash_add k seen)) =
                    List.length ks + List.length (hash_add k seen))%nat) by lia.
      apply hash_add_len in E. apply IH in E2. destruct E2 as [ND NI].
      split.
      * constructor; [|exact ND]. intros K. apply (NI k K). apply hash_add_in. now left.
      * intros k' [->|K]; [exact E|]. intros K'. apply (NI k' K). apply hash_add_in. now right.
    + intros [ND NI]. inversion ND as [|k0 ks0 N1 N2 EQ]; subst.
      assert (E : ~ In k seen) by (apply NI; now left).
      apply hash_add_len in E.
      assert (E2 : (List.length (add_all ks (hash_add k seen)) =
                    List.length ks + List.length (hash_add k seen))%nat).
      { apply IH. split; [exact N2|]. intros k' K K'. apply hash_add_in in K'.
        destruct K' as [->|K']; [contradiction|]. exact (NI k' (or_intror K) K'). }
      lia.
Qed.

Section Loops.
Variables (O : oracle) (rec : addr -> gval -> res unit).

Lemma items_loop_ok items uniq l : forall seen hs,
  items_loop O rec items uniq l seen = Ok hs <->
  (forall i x, items = Some i -> In x l -> rec i x = Ok tt)
  /\ (if uniq then exists ks, hashes_of O l ks /\ hs = add_all ks seen else hs = seen).
Proof.
  induction l as [|x l IH]; intros seen hs; cbn [items_loop].
  - split.
    + intros H. injection H as <-. split; [intros i x _ []|].
      destruct uniq; [|reflexivity]. exists []. split; [constructor|reflexivity].
    + intros [_ H]. destruct uniq.
      * destruct H as (ks & A & ->). inversion A; subst. reflexivity.
      * now subst.
  - rewrite rbind_ok. split.
    + intros ([] & A & B).
      assert (A' : forall i, items = Some i -> rec i x = Ok tt) by (intros i Hi; now subst items).
      destruct uniq.
      * destruct (item_hash O x) as [k|] eqn:Hk; [|discriminate].
        apply IH in B. destruct B as [B1 (ks & B2 & B3)]. split.
        -- intros i y Hi [<-|Hy]; eauto.
        -- exists (k :: ks). split; [constructor; assumption|exact B3].
      * apply IH in B. destruct B as [B1 B2]. split; [|exact B2].
        intros i y Hi [<-|Hy]; eauto.
    + intros [A B]. exists tt. split.
      * destruct items as [i|]; [|reflexivity]. apply (A i x); [reflexivity|now left].
      * destruct uniq.
        -- destruct B as (ks & B1 & B2). inversion B1 as [|x0 k l0 ks' H1 H2 E1 E2]; subst.
           rewrite H1. apply IH. split; [intros i y Hi Hy; apply (A i y Hi); now right|].
           exists ks'. split; [exact H2|reflexivity].
        -- apply IH. split; [|exact B]. intros i y Hi Hy. apply (A i y Hi). now right.
Qed.

Lemma items_loop_err items uniq l : forall seen,
  items_loop O rec items uniq l seen = Err ->
  (exists i x, items = Some i /\ In x l /\ rec i x = Err)
  \/ (uniq = true /\ exists x, In x l /\ o_json O x = None).
Proof.
  induction l as [|x l IH]; intros seen; cbn [items_loop]; [discriminate|].
  destruct items as [i|].
  - destruct (rec i x) as [[]| | |] eqn:R; cbn [rbind]; try discriminate.
    + destruct uniq.
      * unfold item_hash. destruct (o_json O x) as [d|] eqn:J.
        -- intros H. apply IH in H. destruct H as [(j & y & A & B & C)|(A & y & B & C)].
           ++ left. exists j, y. split; [exact A|]. split; [now right|exact C].
           ++ right. split; [reflexivity|]. exists y. split; [now right|exact C].
        -- intros _. right. split; [reflexivity|]. exists x. split; [now left|exact J].
      * intros H. apply IH in H. destruct H as [(j & y & A & B & C)|(A & _)]; [|discriminate].
        left. exists j, y. split; [exact A|]. split; [now right|exact C].
    + intros _. left. exists i, x. split; [reflexivity|]. split; [now left|exact R].
  - cbn [rbind]. destruct uniq.
    + unfold item_hash. destruct (o_json O x) as [d|] eqn:J.
      * intros H. apply IH in H. destruct H as [(j & y & A & _)|(A & y & B & C)]; [discriminate|].
        right. split; [reflexivity|]. exists y. split; [now right|exact C].
      * intros _. right. split; [reflexivity|]. exists x. split; [now left|exact J].
    + intros H. apply IH in H. destruct H as [(j & y & A & _)|(A & _)]; discriminate.
Qed.

Lemma pattern_loop_ok k x l : forall failed,
  pattern_loop O rec k x l failed = Ok tt ->
  (failed = false /\ forall k' p, In (k', p) l -> o_match O (p_name p) k = false)
  \/ exists k' p, In (k', p) l /\ o_match O (p_name p) k = true /\ rec (p_base p) x = Ok tt.
Proof.
  induction l as [|[k0 p] l IH]; intros failed; cbn [pattern_loop].
  - destruct failed; [discriminate|]. intros _. left. split; [reflexivity|]. intros k' p' [].
  - destruct (o_match O (p_name p) k) eqn:E.
    + destruct (rec (p_base p) x) as [[]| | |] eqn:R; try discriminate.
      * intros _. right. exists k0, p. split; [now left|auto].
      * intros H. apply IH in H. destruct H as [[H _]|(k' & p' & A & B & C)]; [discriminate|].
        right. exists k', p'. split; [now right|auto].
    + intros H. apply IH in H. destruct H as [[H1 H2]|(k' & p' & A & B & C)].
      * left. split; [exact H1|]. intros k' p' [H|H]; [injection H as <- <-; exact E|eauto].
      * right. exists k', p'. split; [now right|auto].
Qed.

Lemma pattern_loop_err k x l : forall failed,
  pattern_loop O rec k x l failed = Err ->
  (failed = true \/ exists k' p, In (k', p) l /\ o_match O (p_name p) k = true)
  /\ forall k' p, In (k', p) l -> o_match O (p_name p) k = true -> rec (p_base p) x = Err.
Proof.
  induction l as [|[k0 p] l IH]; intros failed; cbn [pattern_loop].
  - destruct failed; [|discriminate]. intros _. split; [now left|]. intros k' p' [].
  - destruct (o_match O (p_name p) k) eqn:E.
    + destruct (rec (p_base p) x) as [[]| | |] eqn:R; try discriminate.
      intros H. apply IH in H. destruct H as [_ H]. split.
      * right. exists k0, p. split; [now left|exact E].
      * intros k' p' [Q|Q]; [injection Q as <- <-; auto|eauto].
    + intros H. apply IH in H. destruct H as [H1 H2]. split.
      * destruct H1 as [H1|(k' & p' & A & B)]; [now left|].
        right. exists k', p'. split; [now right|exact B].
      * intros k' p' [Q|Q] M; [injection Q as <- <-; congruence|eauto].
Qed.

Lemma missing_required_iff props (kvs : list (string * gval)) :
  missing_required props kvs = false <->
  forall k p, In (k, p) props -> p_req p = true -> exists x, In (k, x) kvs.
Proof.
  unfold missing_required. split.
  - intros H k p Hin Hr.
    assert (~ existsb (fun kp => p_req (snd kp) && negb (existsb (String.eqb (fst kp)) (map fst kvs))) props = true) by congruence.
    destruct (existsb (String.eqb k) (map fst kvs)) eqn:E.
    + apply existsb_exists in E. destruct E as (k' & A & B). apply String.eqb_eq in B. subst k'.
      apply in_map_iff in A. destruct A as ([k' x] & A & B). simpl in A. subst k'. eauto.
    + exfalso. apply H0. apply existsb_exists. exists (k, p). split; [exact Hin|].
      simpl. rewrite Hr, E. reflexivity.
  - intros H. apply not_true_is_false. intros K. apply existsb_exists in K.
    destruct K as ([k p] & A & B). simpl in B. apply andb_true_iff in B. destruct B as [B1 B2].
    destruct (H k p A B1) as [x Hx]. apply negb_true_iff in B2.
    assert (existsb (String.eqb k) (map fst kvs) = true); [|congruence].
    apply existsb_exists. exists k. split; [|apply String.eqb_refl].
    apply in_map_iff. exists (k, x). auto.
Qed.

Definition key_res (props pprops : omap prop) (restricted : bool) (k : string) (x : gval) : res unit :=
  match oget k props with
  | Some p => rec (p_base p) x
  | None => if restricted then Err else pattern_loop O rec k x pprops false
  end.

Lemma props_loop_ok props pprops restricted kvs :
  props_loop O rec props pprops restricted kvs = Ok tt <->
  forall k x, In (k, x) kvs -> key_res props pprops restricted k x = Ok tt.
Proof.
  induction kvs as [|[k x] kvs IH]; cbn [props_loop].
  - split; [intros _ k x []|reflexivity].
  - change (match oget k props with
             | Some p => rec (p_base p) x
             | None => if restricted then Err else pattern_loop O rec k x pprops false
             end) with (key_res props pprops restricted k x).
    rewrite rbind_ok. split.
    + intros ([] & A & B) k' x' [H|H]; [injection H as <- <-; exact A|].
      rewrite IH in B. auto.
    + intros H. exists tt. split; [apply H; now left|]. apply IH. intros k' x' K. apply H. now right.
Qed.

Lemma props_loop_err props pprops restricted kvs :
  props_loop O rec props pprops restricted kvs = Err ->
  exists k x, In (k, x) kvs /\ key_res props pprops restricted k x = Err.
Proof.
  induction kvs as [|[k x] kvs IH]; cbn [props_loop]; [discriminate|].
  change (match oget k props with
             | Some p => rec (p_base p) x
             | None => if restricted then Err else pattern_loop O rec k x pprops false
             end) with (key_res props pprops restricted k x).
  destruct (key_res props pprops restricted k x) as [[]| | |] eqn:E; cbn [rbind]; try discriminate.
  - intros H. destruct (IH H) as (k' & x' & A & B). exists k', x'. split; [now right|exact B].
  - intros _. exists k, x. split; [now left|exact E].
Qed.

Lemma union_validate_ok l v :
  union_validate rec l v = Ok tt -> exists m, In m l /\ rec m v = Ok tt.
Proof.
  induction l as [|a l IH]; cbn [union_validate]; [discriminate|].
  destruct (rec a v) as [[]| | |] eqn:R; try discriminate.
  - intros _. exists a. split; [now left|exact R].
  - intros H. destruct (IH H) as (m & A & B). exists m. split; [now right|exact B].
Qed.

Lemma union_validate_err l v :
  union_validate rec l v = Err -> forall m, In m l -> rec m v = Err.
Proof.
  induction l as [|a l IH]; cbn [union_validate].
  - intros _ m [].
  - destruct (rec a v) as [[]| | |] eqn:R; try discriminate.
    intros H m [<-|K]; auto.
Qed.
End Loops.

(** * Uniqueness *)
Lemma hashes_of_nth O l ks i x :
  hashes_of O l ks -> nth_error l i = Some x ->
  exists k, nth_error ks i = Some k /\ item_hash O x = Some k.
Proof.
  intros H. revert i. induction H as [|y k l ks Hy H IH]; intros i E.
  - destruct i; discriminate.
  - destruct i as [|i]; simpl in E.
    + injection E as ->. exists k. auto.
    + apply IH in E. exact E.
Qed.

Lemma hashes_of_len O l ks : hashes_of O l ks -> List.length ks = List.length l.
Proof. induction 1; simpl; congruence. Qed.

Lemma hashes_encodable O l : (exists ks, hashes_of O l ks) <-> encodable O l.
Proof.
  split.
  - intros (ks & H) x Hx. apply In_nth_error in Hx. destruct Hx as [i Hi].
    destruct (hashes_of_nth _ _ _ _ _ H Hi) as (k & _ & K). apply item_hash_some in K.
    destruct K as (d & K & _). eauto.
  - induction l as [|x l IH]; intros H.
    + exists []. constructor.
    + destruct IH as [ks Hks]; [intros y Hy; apply H; now right|].
      destruct (H x (or_introl eq_refl)) as [d Hd].
      exists (o_hash O d :: ks). constructor; [|exact Hks].
      unfold item_hash. rewrite Hd. reflexivity.
Qed.

Lemma nodup_distinct O l ks : hashes_of O l ks -> NoDup ks -> distinct_json O l.
Proof.
  intros H ND i j x y Hi Hj Hne.
  destruct (hashes_of_nth _ _ _ _ _ H Hi) as (k & K1 & K2).
  destruct (hashes_of_nth _ _ _ _ _ H Hj) as (k' & K1' & K2').
  apply item_hash_some in K2. apply item_hash_some in K2'.
  destruct K2 as (d & A & B), K2' as (e & A' & B').
  exists d, e. repeat split; auto. intros ->. apply Hne.
  apply (NoDup_nth_error ks); [exact ND| |congruence].
  apply nth_error_Some. congruence.
Qed.

Lemma distinct_nodup O l ks : hash_injective O -> hashes_of O l ks -> distinct_json O l -> NoDup ks.
Proof.
  intros HI H D. apply NoDup_nth_error. intros i j Hi E.
  destruct (Nat.eq_dec i j) as [|N]; [assumption|exfalso].
  rewrite (hashes_of_len _ _ _ H) in Hi.
  destruct (nth_error l i) as [x|] eqn:Ex; [|apply nth_error_None in Ex; lia].
  destruct (hashes_of_nth _ _ _ _ _ H Ex) as (k & K1 & K2).
  rewrite K1 in E. symmetry in E.
  destruct (nth_error l j) as [y|] eqn:Ey.
  - destruct (hashes_of_nth _ _ _ _ _ H Ey) as (k' & K1' & K2').
    destruct (D i j x y Ex Ey N) as (d & e & A & B & C).
    apply item_hash_some in K2. apply item_hash_some in K2'.
    destruct K2 as (d' & A2 & B2), K2' as (e' & A3 & B3).
    apply C. apply HI. congruence.
  - apply nth_error_None in Ey. rewrite <- (hashes_of_len _ _ _ H) in Ey.
    assert (j < List.length ks)%nat by (apply nth_error_Some; congruence). lia.
Qed.

(** * One level of [validate] *)
Lemma array_ok O rec f v :
  array_validate O rec f v = Ok tt ->
  array_accepts O (fun c w => rec c w = Ok tt) f v.
Proof.
  unfold array_validate. destruct v as [| | | | | | |l| |]; try discriminate.
  cbv zeta. rewrite !if_err, rbind_ok, below_Z, above_Z. intros (A & B & hs & C & D).
  apply items_loop_ok in C. destruct C as [C1 C2].
  exists l. split; [reflexivity|]. split; [exact A|]. split; [exact B|].
  split; [exact C1|]. intros U. rewrite U in C2, D.
  destruct C2 as (ks & H1 & ->). apply if_err in D. destruct D as [D _]. cbn [andb] in D.
  apply negb_false_iff, Nat.eqb_eq in D.
  assert (E : NoDup ks).
  { apply (add_all_len ks []). rewrite D, <- (hashes_of_len _ _ _ H1). simpl. lia. }
  split; [apply hashes_encodable; eauto|]. eapply nodup_distinct; eauto.
Qed.

Lemma array_complete O rec f v :
  hash_injective O ->
  array_accepts O (fun c w => rec c w = Ok tt) f v ->
  array_validate O rec f v = Ok tt.
Proof.
  intros HI (l & -> & A & B & C & D). unfold array_validate. cbv zeta.
  rewrite !if_err, rbind_ok, below_Z, above_Z. split; [exact A|]. split; [exact B|].
  destruct (match a_uniq f with Some true => true | _ => false end) eqn:U.
  - assert (U' : a_uniq f = Some true) by (destruct (a_uniq f) as [[]|]; congruence).
    destruct (D U') as [D1 D2]. apply hashes_encodable in D1. destruct D1 as [ks Hks].
    exists (add_all ks []). split.
    + apply items_loop_ok. split; [exact C|]. exists ks. auto.
    + rewrite if_err. split; [|reflexivity]. cbn [andb]. apply negb_false_iff, Nat.eqb_eq.
      rewrite <- (hashes_of_len _ _ _ Hks).
      rewrite (proj2 (add_all_len ks [])); [simpl; lia|].
      split; [eapply distinct_nodup; eauto|intros k _ []].
  - exists []. split; [apply items_loop_ok; split; [exact C|reflexivity]|]. reflexivity.
Qed.

Lemma if_Err {A} (c : bool) (x : res A) : (if c then Err else x) = Err -> c = true \/ x = Err.
Proof. destruct c; auto. Qed.

Lemma array_err O rec f v :
  hash_injective O ->
  array_validate O rec f v = Err ->
  ~ array_accepts O (fun c w => rec c w <> Err) f v.
Proof.
  intros HI H (l & -> & A & B & C & D). unfold array_validate in H. cbv zeta in H.
  apply below_Z in A. apply above_Z in B. rewrite A, B in H.
  destruct (match a_uniq f with Some true => true | _ => false end) eqn:U.
  - assert (U' : a_uniq f = Some true) by (destruct (a_uniq f) as [[]|]; congruence).
    destruct (D U') as [D1 D2]. pose proof D1 as D1'.
    apply hashes_encodable in D1. destruct D1 as [ks Hks].
    destruct (items_loop O rec (a_items f) true l []) as [hs| | |] eqn:E; cbn [rbind] in H; try discriminate.
    + apply items_loop_ok in E. destruct E as [_ (ks' & E1 & ->)].
      cbn [andb] in H. destruct (Nat.eqb _ _) eqn:Q; [discriminate|]. apply Nat.eqb_neq in Q.
      apply Q. rewrite <- (hashes_of_len _ _ _ E1).
      rewrite (proj2 (add_all_len ks' [])); [simpl; lia|].
      split; [eapply distinct_nodup; eauto|intros k _ []].
    + apply items_loop_err in E. destruct E as [(i & x & E1 & E2 & E3)|(_ & x & E1 & E2)].
      * exact (C i x E1 E2 E3).
      * destruct (D1' x E1) as [d Hd]. congruence.
  - destruct (items_loop O rec (a_items f) false l []) as [hs| | |] eqn:E; cbn [rbind andb] in H; try discriminate.
    apply items_loop_err in E. destruct E as [(i & x & E1 & E2 & E3)|(E & _)]; [|discriminate].
    exact (C i x E1 E2 E3).
Qed.

Lemma restricted_iff (o : option bool) :
  (match o with Some false => true | _ => false end) = false <-> o <> Some false.
Proof. destruct o as [[]|]; split; try discriminate; try congruence. Qed.

Lemma object_ok O h rec f ps pps v :
  props_of h (o_props f) ps -> props_of h (o_pprops f) pps ->
  object_validate O rec f ps pps v = Ok tt ->
  object_accepts O h (fun c w => rec c w = Ok tt) f v.
Proof.
  intros Hp Hq. unfold object_validate. destruct v as [| | | | | | | |kvs|]; try discriminate.
  cbv zeta. rewrite !if_err, below_Z, above_Z, missing_required_iff, props_loop_ok.
  intros (A & B & C & D). exists kvs, ps, pps.
  repeat (split; [solve [auto]|]). split.
  - intros k x p Hin E. specialize (D k x Hin). unfold key_res in D. rewrite E in D. exact D.
  - intros k x Hin E. specialize (D k x Hin). unfold key_res in D. rewrite E in D.
    destruct (match o_addl f with Some false => true | _ => false end) eqn:R; [discriminate|].
    apply restricted_iff in R. split; [exact R|].
    apply pattern_loop_ok in D. destruct D as [[_ D]|(k' & p & D1 & D2 & D3)]; [now left|].
    right. eauto.
Qed.

Lemma object_err O h rec f ps pps v :
  props_of h (o_props f) ps -> props_of h (o_pprops f) pps ->
  object_validate O rec f ps pps v = Err ->
  ~ object_accepts O h (fun c w => rec c w <> Err) f v.
Proof.
  intros Hp Hq H (kvs & ps' & pps' & -> & P1 & P2 & A & B & C & D & E).
  assert (ps' = ps) by (eapply props_of_fun; eauto). subst ps'.
  assert (pps' = pps) by (eapply props_of_fun; eauto). subst pps'.
  unfold object_validate in H. cbv zeta in H.
  apply below_Z in A. apply above_Z in B. apply missing_required_iff in C.
  rewrite A, B, C in H. apply props_loop_err in H. destruct H as (k & x & Hin & H).
  unfold key_res in H. destruct (oget k ps) as [p|] eqn:G.
  - exact (D k x p Hin G H).
  - destruct (E k x Hin G) as [E1 E2]. apply restricted_iff in E1. rewrite E1 in H.
    apply pattern_loop_err in H. destruct H as [H1 H2].
    destruct E2 as [E2|(k' & p & F1 & F2 & F3)].
    + destruct H1 as [H1|(k' & p & F1 & F2)]; [discriminate|].
      rewrite (E2 _ _ F1) in F2. discriminate.
    + apply F3. eapply H2; eauto.
Qed.

(** * Scalars, uniformly *)
Definition scalar_validate (O : oracle) (sh : shape) (v : gval) : option (res unit) :=
  match sh with
  | SAny => Some (Ok tt)
  | SNil => Some (nil_validate v)
  | SInt f => Some (int_validate O f v)
  | SNum f => Some (num_validate f v)
  | SStr f => Some (str_validate O f v)
  | SFile f => Some (file_validate f v)
  | SBool e => Some (bool_validate e v)
  | SDateTime f => Some (datetime_validate O f v)
  | SDateTimeOnly => Some (layout_validate O layout_datetime v)
  | SDateOnly => Some (layout_validate O layout_dateonly v)
  | STimeOnly => Some (layout_validate O layout_timeonly v)
  | SJSON _ => Some (Ok tt)
  | SUnknown => Some Err
  | _ => None
  end.

Lemma scalar_iff O h P sh v r :
  oracle_wf O -> gval_wf v -> scalar_validate O sh v = Some r ->
  (r = Ok tt <-> shape_accepts O h P sh v) /\ (r = Ok tt \/ r = Err).
Proof.
  intros HO Hv H. destruct sh; simpl in H; try discriminate; injection H as <-; cbn [shape_accepts].
  - tauto.
  - split; [apply nil_validate_iff|]. destruct v; simpl; auto.
  - split; [now apply int_validate_iff|apply int_validate_total].
  - split; [now apply num_validate_iff|apply num_validate_total].
  - split; [now apply str_validate_iff|apply str_validate_total].
  - split; [now apply file_validate_iff|apply file_validate_total].
  - split; [now apply bool_validate_iff|apply bool_validate_total].
  - split; [now apply datetime_validate_iff|apply datetime_validate_total].
  - split; [now apply layout_validate_iff|apply layout_validate_total].
  - split; [now apply layout_validate_iff|apply layout_validate_total].
  - split; [now apply layout_validate_iff|apply layout_validate_total].
  - tauto.
  - split; [|auto]. split; [discriminate|tauto].
Qed.

(** [validate] with one level of fuel peeled off. *)
Lemma validate_S n O h a v :
  validate (S n) O h a v =
  match get_base h a with
  | None => Panic
  | Some b =>
      match b_shape b with
      | None => Panic
      | Some sh =>
          match scalar_validate O sh v with
          | Some r => r
          | None =>
              match sh with
              | SArray f => array_validate O (validate n O h) f v
              | SObject f =>
                  match opt_props h (o_props f), opt_props h (o_pprops f) with
                  | Some ps, Some pps => object_validate O (validate n O h) f ps pps v
                  | _, _ => Panic
                  end
              | SUnion sl _ =>
                  match get_slice h sl with
                  | Some l => union_validate (validate n O h) l v
                  | None => Panic
                  end
              | SRec hd => validate n O h hd v
              | _ => Err
              end
          end
      end
  end.
Proof.
  cbn [validate]. destruct (get_base h a) as [b|]; [|reflexivity].
  destruct (b_shape b) as [sh|]; [|reflexivity].
  destruct sh; reflexivity.
Qed.

Lemma value_wf_gval v : value_wf v -> gval_wf v.
Proof. intros H. inversion H; subst; auto; exact I. Qed.

Lemma value_wf_arr l x : value_wf (GArr l) -> In x l -> value_wf x.
Proof. intros H. inversion H; subst; auto. exfalso; eapply H1; reflexivity. Qed.

Lemma value_wf_map l k x : value_wf (GMap l) -> In (k, x) l -> value_wf x.
Proof. intros H. inversion H; subst; eauto. exfalso; eapply H2; reflexivity. Qed.

(** Restricting the component predicate to well-formed values. *)
Lemma shape_accepts_wf O h P sh v :
  value_wf v -> shape_accepts O h P sh v ->
  shape_accepts O h (fun c w => value_wf w /\ P c w) sh v.
Proof.
  intros W. destruct sh; cbn [shape_accepts]; auto.
  - intros (l & -> & A & B & C & D). exists l. repeat (split; [solve [auto]|]).
    split; [|exact D]. intros i x Hi Hx. split; [eapply value_wf_arr; eauto|eauto].
  - intros (kvs & ps & pps & -> & A1 & A2 & A3 & A4 & A5 & A6 & A7).
    exists kvs, ps, pps. repeat (split; [solve [auto]|]). split.
    + intros k x p Hin E. split; [eapply value_wf_map; eauto|eauto].
    + intros k x Hin E. destruct (A7 k x Hin E) as [B1 B2]. split; [exact B1|].
      destruct B2 as [B2|(k' & p & C1 & C2 & C3)]; [now left|]. right.
      exists k', p. repeat (split; [solve [auto]|]). split; [eapply value_wf_map; eauto|exact C3].
  - intros (l & m & A & B & C). exists l, m. auto.
Qed.

Lemma validate_step n O h a v :
  oracle_wf O -> gval_wf v ->
  validate (S n) O h a v = Ok tt -> step O h (fun c w => validate n O h c w = Ok tt) a v.
Proof.
  intros HO Hv. rewrite validate_S.
  destruct (get_base h a) as [b|] eqn:Eb; [|discriminate].
  destruct (b_shape b) as [sh|] eqn:Es; [|discriminate].
  intros H. exists sh. split; [exists b; auto|].
  destruct (scalar_validate O sh v) as [r|] eqn:Er.
  - apply (scalar_iff O h _ sh v r HO Hv Er). exact H.
  - destruct sh; simpl in Er; try discriminate; cbn [shape_accepts].
    + now apply array_ok.
    + destruct (opt_props h (o_props f)) as [ps|] eqn:E1; [|discriminate].
      destruct (opt_props h (o_pprops f)) as [pps|] eqn:E2; [|discriminate].
      apply opt_props_of in E1. apply opt_props_of in E2. eapply object_ok; eauto.
    + destruct (get_slice h anyof) as [l|] eqn:E1; [|discriminate].
      apply union_validate_ok in H. destruct H as (m & A & B). exists l, m. auto.
    + exact H.
Qed.

Lemma validate_err_step n O h a v :
  oracle_wf O -> hash_injective O -> gval_wf v ->
  validate (S n) O h a v = Err -> ~ step O h (fun c w => validate n O h c w <> Err) a v.
Proof.
  intros HO HI Hv. rewrite validate_S.
  destruct (get_base h a) as [b|] eqn:Eb; [|discriminate].
  destruct (b_shape b) as [sh|] eqn:Es; [|discriminate].
  intros H (sh' & K1 & K2).
  assert (sh' = sh) by (eapply shape_at_fun; [exact K1|exists b; auto]). subst sh'.
  destruct (scalar_validate O sh v) as [r|] eqn:Er.
  - apply (scalar_iff O h _ sh v r HO Hv Er) in K2. congruence.
  - destruct sh; simpl in Er; try discriminate; cbn [shape_accepts] in K2.
    + eapply array_err; eauto.
    + destruct (opt_props h (o_props f)) as [ps|] eqn:E1; [|discriminate].
      destruct (opt_props h (o_pprops f)) as [pps|] eqn:E2; [|discriminate].
      apply opt_props_of in E1. apply opt_props_of in E2. eapply object_err; eauto.
    + destruct K2 as (l & m & A & B & C). rewrite A in H.
      apply C. eapply union_validate_err; eauto.
    + contradiction.
Qed.

Lemma validate_sound n : forall O h a v,
  oracle_wf O -> value_wf v -> validate n O h a v = Ok tt -> valid O h a v.
Proof.
  induction n as [|n IH]; intros O h a v HO Hv H; [discriminate|].
  apply validate_step in H; [|exact HO|now apply value_wf_gval].
  destruct H as (sh & A & B). apply valid_fold. exists sh. split; [exact A|].
  apply shape_accepts_wf in B; [|exact Hv].
  eapply shape_accepts_mono; [|exact B]. intros c w [W E]. eapply IH; eauto.
Qed.

Lemma validate_complete n : forall O h a v,
  oracle_wf O -> hash_injective O -> value_wf v ->
  validate n O h a v = Err -> ~ valid O h a v.
Proof.
  induction n as [|n IH]; intros O h a v HO HI Hv H; [discriminate|].
  intros K. apply valid_unfold in K.
  apply validate_err_step in H; [|exact HO|exact HI|now apply value_wf_gval].
  apply H. destruct K as (sh & A & B). exists sh. split; [exact A|].
  apply shape_accepts_wf in B; [|exact Hv].
  eapply shape_accepts_mono; [|exact B]. intros c w [W V] E. eapply IH; eauto.
Qed.

(** * More fuel does not change an outcome *)
Definition approx {A} (r r' : res A) : Prop := r = OutOfFuel \/ r' = r.

Lemma approx_refl {A} (r : res A) : approx r r.
Proof. now right. Qed.

Lemma approx_rbind {A B} (r r' : res A) (f g : A -> res B) :
  approx r r' -> (forall a, approx (f a) (g a)) -> approx (rbind r f) (rbind r' g).
Proof.
  intros [->| ->] H; [now left|]. destruct r; simpl; auto using approx_refl.
Qed.

Section Approx.
Variables (O : oracle) (r1 r2 : addr -> gval -> res unit).
Hypothesis Hr : forall c w, approx (r1 c w) (r2 c w).

Lemma items_loop_approx items uniq l : forall seen,
  approx (items_loop O r1 items uniq l seen) (items_loop O r2 items uniq l seen).
Proof.
  induction l as [|x l IH]; intros seen; cbn [items_loop]; [apply approx_refl|].
  apply approx_rbind; [destruct items; auto using approx_refl|].
  intros _. destruct uniq; [|apply IH]. destruct (item_hash O x); [apply IH|apply approx_refl].
Qed.

Lemma pattern_loop_approx k x l : forall failed,
  approx (pattern_loop O r1 k x l failed) (pattern_loop O r2 k x l failed).
Proof.
  induction l as [|[k0 p] l IH]; intros failed; cbn [pattern_loop]; [apply approx_refl|].
  destruct (o_match O (p_name p) k); [|apply IH].
  destruct (Hr (p_base p) x) as [->| ->]; [now left|].
  destruct (r1 (p_base p) x); auto using approx_refl.
Qed.

Lemma props_loop_approx ps pps restricted kvs :
  approx (props_loop O r1 ps pps restricted kvs) (props_loop O r2 ps pps restricted kvs).
Proof.
  induction kvs as [|[k x] kvs IH]; cbn [props_loop]; [apply approx_refl|].
  apply approx_rbind; [|auto].
  destruct (oget k ps); [apply Hr|]. destruct restricted; [apply approx_refl|].
  apply pattern_loop_approx.
Qed.

Lemma union_validate_approx l v :
  approx (union_validate r1 l v) (union_validate r2 l v).
Proof.
  induction l as [|a l IH]; cbn [union_validate]; [apply approx_refl|].
  destruct (Hr a v) as [->| ->]; [now left|].
  destruct (r1 a v); auto using approx_refl.
Qed.

Lemma array_validate_approx f v : approx (array_validate O r1 f v) (array_validate O r2 f v).
Proof.
  unfold array_validate. destruct v; try apply approx_refl. cbv zeta.
  destruct (below _ _ _); [apply approx_refl|]. destruct (above _ _ _); [apply approx_refl|].
  apply approx_rbind; [apply items_loop_approx|]. intros; apply approx_refl.
Qed.

Lemma object_validate_approx f ps pps v :
  approx (object_validate O r1 f ps pps v) (object_validate O r2 f ps pps v).
Proof.
  unfold object_validate. destruct v; try apply approx_refl. cbv zeta.
  destruct (below _ _ _); [apply approx_refl|]. destruct (above _ _ _); [apply approx_refl|].
  destruct (missing_required _ _); [apply approx_refl|]. apply props_loop_approx.
Qed.
End Approx.

Lemma validate_approx n : forall O h a v, approx (validate n O h a v) (validate (S n) O h a v).
Proof.
  induction n as [|n IH]; intros O h a v; [now left|].
  rewrite (validate_S n), (validate_S (S n)).
  destruct (get_base h a) as [b|]; [|apply approx_refl].
  destruct (b_shape b) as [sh|]; [|apply approx_refl].
  destruct (scalar_validate O sh v); [apply approx_refl|].
  destruct sh; try apply approx_refl.
  - apply array_validate_approx. intros; apply IH.
  - destruct (opt_props h (o_props f)); [|apply approx_refl].
    destruct (opt_props h (o_pprops f)); [|apply approx_refl].
    apply object_validate_approx. intros; apply IH.
  - destruct (get_slice h anyof); [|apply approx_refl].
    apply union_validate_approx. intros; apply IH.
  - apply IH.
Qed.

Lemma validate_mono n m O h a v r :
  (n <= m)%nat -> validate n O h a v = r -> r <> OutOfFuel -> validate m O h a v = r.
Proof.
  intros L E N. induction L as [|m L IH]; [exact E|].
  destruct (validate_approx m O h a v) as [H|H]; congruence.
Qed.

(** * Termination *)
Fixpoint gsize (v : gval) : nat :=
  match v with
  | GArr l => S (fold_right (fun x s => (gsize x + s)%nat) O l)
  | GMap l => S (fold_right (fun kx s => (gsize (snd kx) + s)%nat) O l)
  | _ => 1%nat
  end.

Lemma gsize_arr l x : In x l -> (gsize x < gsize (GArr l))%nat.
Proof.
  intros H. cbn [gsize]. induction l as [|y l IH]; [destruct H|].
  cbn [fold_right]. destruct H as [->|H]; [lia|]. specialize (IH H). lia.
Qed.

Lemma gsize_map l k x : In (k, x) l -> (gsize x < gsize (GMap l))%nat.
Proof.
  intros H. cbn [gsize]. induction l as [|[k' y] l IH]; [destruct H|].
  cbn [fold_right snd]. destruct H as [H|H]; [injection H as -> ->; lia|]. specialize (IH H). lia.
Qed.

Definition decided (r : res unit) : Prop := r = Ok tt \/ r = Err.

Lemma decided_mono n m O h a v :
  (n <= m)%nat -> decided (validate n O h a v) -> decided (validate m O h a v).
Proof.
  intros L [H|H]; [left|right]; eapply validate_mono; eauto; discriminate.
Qed.

Lemma items_loop_decided O rec items uniq l : forall seen,
  (forall i x, items = Some i -> In x l -> decided (rec i x)) ->
  (exists hs, items_loop O rec items uniq l seen = Ok hs) \/ items_loop O rec items uniq l seen = Err.
Proof.
  induction l as [|x l IH]; intros seen H; cbn [items_loop]; [eauto|].
  assert (D : decided (match items with Some i => rec i x | None => Ok tt end)).
  { destruct items as [i|]; [apply H; auto; now left|now left]. }
  destruct D as [->| ->]; cbn [rbind]; [|now right].
  destruct uniq; [destruct (item_hash O x); [|now right]|];
    (apply IH; intros i y Hi Hy; apply H; [exact Hi|now right]).
Qed.

Lemma pattern_loop_decided O rec k x l : forall failed,
  (forall k' p, In (k', p) l -> decided (rec (p_base p) x)) ->
  decided (pattern_loop O rec k x l failed).
Proof.
  induction l as [|[k0 p] l IH]; intros failed H; cbn [pattern_loop].
  - destruct failed; [now right|now left].
  - destruct (o_match O (p_name p) k).
    + destruct (H k0 p (or_introl eq_refl)) as [->| ->]; [now left|].
      apply IH. intros k' p' K. apply (H k'). now right.
    + apply IH. intros k' p' K. apply (H k'). now right.
Qed.

Lemma oget_in {A} k (m : omap A) v : oget k m = Some v -> In (k, v) m.
Proof.
  induction m as [|[k' v'] m IH]; cbn [oget]; [discriminate|].
  destruct (String.eqb k k') eqn:E.
  - apply String.eqb_eq in E. subst. intros H. injection H as ->. now left.
  - intros H. right. auto.
Qed.

Lemma props_loop_decided O rec ps pps restricted kvs :
  (forall k x k' p, In (k, x) kvs -> In (k', p) ps \/ In (k', p) pps -> decided (rec (p_base p) x)) ->
  decided (props_loop O rec ps pps restricted kvs).
Proof.
  induction kvs as [|[k x] kvs IH]; intros H; cbn [props_loop]; [now left|].
  assert (D : decided (match oget k ps with
             | Some p => rec (p_base p) x
             | None => if restricted then Err else pattern_loop O rec k x pps false
             end)).
  { destruct (oget k ps) as [p|] eqn:E.
    - apply oget_in in E. eapply (H k x k p); [now left|now left].
    - destruct restricted; [now right|]. apply pattern_loop_decided.
      intros k' p K. eapply (H k x k' p); [now left|now right]. }
  destruct D as [->| ->]; cbn [rbind]; [|now right].
  apply IH. intros k0 x0 k' p K L. exact (H k0 x0 k' p (or_intror K) L).
Qed.

Lemma union_validate_decided rec l v :
  (forall m, In m l -> decided (rec m v)) -> decided (union_validate rec l v).
Proof.
  induction l as [|a l IH]; intros H; cbn [union_validate]; [now right|].
  destruct (H a (or_introl eq_refl)) as [->| ->]; [now left|].
  apply IH. intros m K. apply H. now right.
Qed.

(** Uniform bounds over finite collections. *)
Lemma bound_list {A} (l : list A) (Q : A -> nat -> Prop) :
  (forall a n m, (n <= m)%nat -> Q a n -> Q a m) ->
  (forall a, In a l -> exists n, Q a n) -> exists n, forall a, In a l -> Q a n.
Proof.
  intros HM. induction l as [|a l IH]; intros H.
  - exists 0%nat. intros a [].
  - destruct IH as [n Hn]; [intros b Hb; apply H; now right|].
    destruct (H a (or_introl eq_refl)) as [m Hm].
    exists (Nat.max n m). intros b [<-|Hb].
    + eapply HM; [|exact Hm]. lia.
    + eapply HM; [|apply Hn; exact Hb]. lia.
Qed.

Definition all_decided O h v n :=
  forall a sh, shape_at h a sh -> decided (validate n O h a v).

Lemma get_base_lt h a b : get_base h a = Some b -> (a < List.length h)%nat.
Proof.
  unfold get_base. destruct (nth_error h a) eqn:E; [|discriminate].
  intros _. apply nth_error_Some. congruence.
Qed.

Lemma scalar_decided O sh v r : scalar_validate O sh v = Some r -> decided r.
Proof.
  intros H. unfold decided.
  destruct sh; simpl in H; try discriminate; injection H as <-; auto.
  - destruct v; simpl; auto.
  - apply int_validate_total.
  - apply num_validate_total.
  - apply str_validate_total.
  - apply file_validate_total.
  - apply bool_validate_total.
  - apply datetime_validate_total.
  - apply layout_validate_total.
  - apply layout_validate_total.
  - apply layout_validate_total.
Qed.

Lemma validate_terminates_at O h v n0 :
  closed h ->
  (forall l x, v = GArr l -> In x l -> all_decided O h x n0) ->
  (forall l k x, v = GMap l -> In (k, x) l -> all_decided O h x n0) ->
  forall a, Acc (fun c a => exists sh, shape_at h a sh /\ same_value_child h sh c) a ->
  forall sh, shape_at h a sh -> exists n, decided (validate n O h a v).
Proof.
  intros HC Ha Hm a HA. induction HA as [a _ IH]. intros sh Hsh.
  pose proof (HC a sh Hsh) as [HC1 HC2].
  destruct (scalar_validate O sh v) as [r|] eqn:Er.
  { exists 1%nat. rewrite validate_S. destruct Hsh as (b & -> & ->). rewrite Er.
    eapply scalar_decided; eauto. }
  pose proof Hsh as Hsh'. destruct Hsh' as (b & Eb & Es).
  destruct sh; simpl in Er; try discriminate.
  - exists (S n0). rewrite validate_S, Eb, Es. cbn [scalar_validate].
    unfold array_validate. destruct v as [| | | | | | |l| |]; try now right. cbv zeta.
    destruct (below _ _ _); [now right|]. destruct (above _ _ _); [now right|].
    destruct (items_loop_decided O (validate n0 O h) (a_items f)
      (match a_uniq f with Some true => true | _ => false end) l []) as [[hs ->]| ->].
    + intros i x Hi Hx. destruct (HC1 i) as [sh' Hsh']; [now constructor|].
      eapply Ha; eauto.
    + cbn [rbind]. destruct (_ && _); [now right|now left].
    + now right.
  - destruct HC2 as [[ps Hps] [pps Hpps]].
    exists (S n0). rewrite validate_S, Eb, Es. cbn [scalar_validate].
    rewrite (proj2 (opt_props_of _ _ _) Hps), (proj2 (opt_props_of _ _ _) Hpps).
    unfold object_validate. destruct v as [| | | | | | | |kvs|]; try now right. cbv zeta.
    destruct (below _ _ _); [now right|]. destruct (above _ _ _); [now right|].
    destruct (missing_required _ _); [now right|].
    apply props_loop_decided. intros k x k' p Hin Hp.
    destruct (HC1 (p_base p)) as [sh' Hsh'].
    { destruct Hp as [Hp|Hp]; [eapply ch_prop|eapply ch_pprop]; eauto. }
    eapply Hm; eauto.
  - destruct HC2 as [l Hl].
    destruct (bound_list l (fun m n => decided (validate n O h m v))) as [n Hn].
    + intros m n n' L. now apply decided_mono.
    + intros m Hin. destruct (HC1 m) as [sh' Hsh']; [econstructor; eauto|].
      apply (IH m) with (sh := sh'); [|exact Hsh'].
      exists (SUnion anyof e). split; [exact Hsh|econstructor; eauto].
    + exists (S n). rewrite validate_S, Eb, Es. cbn [scalar_validate]. rewrite Hl.
      apply union_validate_decided. exact Hn.
  - destruct (HC1 head) as [sh' Hsh']; [constructor|].
    destruct (IH head) with (sh := sh') as [n Hn]; [|exact Hsh'|].
    + exists (SRec head). split; [exact Hsh|constructor].
    + exists (S n). rewrite validate_S, Eb, Es. cbn [scalar_validate]. exact Hn.
Qed.

Lemma validate_terminates O h : closed h -> guarded h ->
  forall k v, (gsize v < k)%nat -> exists n, all_decided O h v n.
Proof.
  intros HC HG. induction k as [|k IH]; intros v Hk; [lia|].
  assert (B : exists n0,
    (forall l x, v = GArr l -> In x l -> all_decided O h x n0) /\
    (forall l k x, v = GMap l -> In (k, x) l -> all_decided O h x n0)).
  { assert (HM : forall x n m, (n <= m)%nat -> all_decided O h x n -> all_decided O h x m).
    { intros x n m L H a sh Hsh. eapply decided_mono; [exact L|]. eapply H; eauto. }
    destruct v as [| | | | | | |l|l|]; try (exists 0%nat; split; intros; discriminate).
    - destruct (bound_list l (fun x n => all_decided O h x n) HM) as [n Hn].
      + intros x Hx. apply IH. pose proof (gsize_arr l x Hx). lia.
      + exists n. split; [|intros; discriminate].
        intros l' x E Hx. injection E as <-. auto.
    - destruct (bound_list l (fun kx n => all_decided O h (snd kx) n)) as [n Hn].
      + intros a n m. apply HM.
      + intros [k' x] Hx. apply IH. pose proof (gsize_map l k' x Hx). simpl. lia.
      + exists n. split; [intros; discriminate|].
        intros l' k' x E Hx. injection E as <-. exact (Hn _ Hx). }
  destruct B as (n0 & B1 & B2).
  destruct (bound_list (seq 0 (List.length h))
    (fun a n => forall sh, shape_at h a sh -> decided (validate n O h a v))) as [n Hn].
  - intros a n m L H sh Hsh. eapply decided_mono; [exact L|eauto].
  - intros a _. destruct (get_base h a) as [b|] eqn:Eb.
    + destruct (b_shape b) as [sh|] eqn:Es.
      * destruct (validate_terminates_at O h v n0 HC B1 B2 a (HG a) sh) as [n Hn]; [exists b; auto|].
        exists n. intros _ _. exact Hn.
      * exists 0%nat. intros sh (b' & A & C). congruence.
    + exists 0%nat. intros sh (b' & A & C). congruence.
  - exists n. intros a sh Hsh. apply (Hn a) with (sh := sh); [|exact Hsh].
    apply in_seq. destruct Hsh as (b & A & _). apply get_base_lt in A. lia.
Qed.

Lemma validate_returns O h a sh v :
  closed h -> guarded h -> shape_at h a sh -> returns O h a v.
Proof.
  intros HC HG Hsh. destruct (validate_terminates O h HC HG (S (gsize v)) v) as [n Hn]; [lia|].
  destruct (Hn a sh Hsh) as [H|H]; [left|right]; exists n; exact H.
Qed.

(** * Verdicts *)
Lemma verdict O h a sh v :
  oracle_wf O -> hash_injective O -> closed h -> guarded h -> shape_at h a sh -> value_wf v ->
  (returns_nil O h a v <-> valid O h a v) /\ (returns_error O h a v <-> ~ valid O h a v)
  /\ returns O h a v.
Proof.
  intros HO HI HC HG Hsh Hv. pose proof (validate_returns O h a sh v HC HG Hsh) as R.
  assert (A : returns_nil O h a v -> valid O h a v).
  { intros [n Hn]. eapply validate_sound; eauto. }
  assert (B : returns_error O h a v -> ~ valid O h a v).
  { intros [n Hn]. eapply validate_complete; eauto. }
  split; [|split; [|exact R]]; split; auto; intros H; destruct R as [R|R]; auto.
  - exfalso. exact (B R H).
  - exfalso. exact (H (A R)).
Qed.

(** [P] need only be right about well-formed values at existing shapes. *)
Lemma shape_accepts_restrict O h (P Q : addr -> gval -> Prop) sh v :
  closed_shape h sh -> value_wf v ->
  (forall c w sh', shape_at h c sh' -> value_wf w -> P c w -> Q c w) ->
  shape_accepts O h P sh v -> shape_accepts O h Q sh v.
Proof.
  intros [HC _] W H. destruct sh; cbn [shape_accepts]; auto.
  - intros (l & -> & A & B & C & D). exists l. repeat (split; [solve [auto]|]).
    split; [|exact D]. intros i x Hi Hx.
    destruct (HC i) as [sh' Hsh']; [now constructor|].
    eapply H; eauto using value_wf_arr.
  - intros (kvs & ps & pps & -> & A1 & A2 & A3 & A4 & A5 & A6 & A7).
    exists kvs, ps, pps. repeat (split; [solve [auto]|]). split.
    + intros k x p Hin E. destruct (HC (p_base p)) as [sh' Hsh'].
      { apply oget_in in E. eapply ch_prop; eauto. }
      eapply H; eauto using value_wf_map.
    + intros k x Hin E. destruct (A7 k x Hin E) as [B1 B2]. split; [exact B1|].
      destruct B2 as [B2|(k' & p & C1 & C2 & C3)]; [now left|]. right.
      exists k', p. repeat (split; [solve [auto]|]).
      destruct (HC (p_base p)) as [sh' Hsh']; [eapply ch_pprop; eauto|].
      eapply H; eauto using value_wf_map.
  - intros (l & m & A & B & C). exists l, m. repeat (split; [solve [auto]|]).
    destruct (HC m) as [sh' Hsh']; [econstructor; eauto|]. eapply H; eauto.
  - intros K. destruct (HC head) as [sh' Hsh']; [constructor|]. eapply H; eauto.
Qed.

Lemma one_level O h a sh v :
  oracle_wf O -> hash_injective O -> closed h -> guarded h -> shape_at h a sh -> value_wf v ->
  (returns_nil O h a v <-> shape_accepts O h (returns_nil O h) sh v)
  /\ (returns_error O h a v <-> ~ shape_accepts O h (returns_nil O h) sh v).
Proof.
  intros HO HI HC HG Hsh Hv.
  destruct (verdict O h a sh v HO HI HC HG Hsh Hv) as (A & B & _).
  assert (E : valid O h a v <-> shape_accepts O h (returns_nil O h) sh v).
  { rewrite valid_iff. split.
    - intros (sh' & K1 & K2). assert (sh' = sh) by (eapply shape_at_fun; eauto). subst sh'.
      eapply shape_accepts_restrict; [exact (HC _ _ Hsh)|exact Hv| |exact K2].
      intros c w s Hs Hw V. apply (verdict O h c s w); auto.
    - intros K. exists sh. split; [exact Hsh|].
      eapply shape_accepts_restrict; [exact (HC _ _ Hsh)|exact Hv| |exact K].
      intros c w s Hs Hw V. apply (verdict O h c s w); auto. }
  rewrite A, B, E. tauto.
Qed.

(** One direction without hypotheses on termination, hashing or the heap. *)
Lemma one_level_sound O h a sh v :
  oracle_wf O -> gval_wf v -> shape_at h a sh ->
  returns_nil O h a v -> shape_accepts O h (returns_nil O h) sh v.
Proof.
  intros HO Hv Hsh [n Hn]. destruct n as [|n]; [discriminate|].
  apply validate_step in Hn; auto. destruct Hn as (sh' & A & B).
  assert (sh' = sh) by (eapply shape_at_fun; eauto). subst sh'.
  eapply shape_accepts_mono; [|exact B]. intros c w E. exists n. exact E.
Qed.

(** * Map order *)
Definition same_either v w := same_value v w \/ same_value w v.

Lemma same_either_arr l w : same_either (GArr l) w ->
  exists l', w = GArr l' /\ List.length l' = List.length l /\
    forall i x', nth_error l' i = Some x' -> exists x, nth_error l i = Some x /\ same_either x x'.
Proof.
  assert (R : forall l, exists l', GArr l = GArr l' /\ List.length l' = List.length l /\
    forall i x', nth_error l' i = Some x' -> exists x, nth_error l i = Some x /\ same_either x x').
  { intros l0. exists l0. repeat split; auto. intros i x E. exists x. split; [exact E|].
    left. constructor. }
  intros [H|H]; inversion H as [u E0|la lb F E1 E2|la lb lc F Pm E1 E2]; subst; try apply R.
  - exists lb. split; [reflexivity|]. clear H R. revert lb F.
    induction l as [|x l IH]; intros l' F; inversion F as [|x0 y l0 l1 S F' E1 E2]; subst.
    + split; [reflexivity|]. intros i x' E. destruct i; discriminate.
    + destruct (IH _ F') as [L K]. split; [simpl; congruence|].
      intros i x' E. destruct i as [|i]; simpl in E.
      * injection E as <-. exists x. split; [reflexivity|now left].
      * destruct (K i x' E) as (z & Z1 & Z2). exists z. auto.
  - exists la. split; [reflexivity|]. clear H R. revert l F.
    induction la as [|y la IH]; intros l F; inversion F as [|x0 x l1 l2 S F' E1 E2]; subst.
    + split; [reflexivity|]. intros i x' E. destruct i; discriminate.
    + destruct (IH _ F') as [L K]. split; [simpl; congruence|].
      intros i x' E. destruct i as [|i]; simpl in E.
      * injection E as <-. exists x. split; [reflexivity|now right].
      * destruct (K i x' E) as (z & Z1 & Z2). exists z. auto.
Qed.

Lemma Forall2_in_r {A B} (R : A -> B -> Prop) l l' y :
  Forall2 R l l' -> In y l' -> exists x, In x l /\ R x y.
Proof.
  induction 1 as [|a b l l' H F IH]; intros K; [destruct K|].
  destruct K as [<-|K]; [exists a; split; [now left|exact H]|].
  destruct (IH K) as (x & A1 & A2). exists x. split; [now right|exact A2].
Qed.

Lemma Forall2_in_l {A B} (R : A -> B -> Prop) l l' x :
  Forall2 R l l' -> In x l -> exists y, In y l' /\ R x y.
Proof.
  induction 1 as [|a b l l' H F IH]; intros K; [destruct K|].
  destruct K as [<-|K]; [exists b; split; [now left|exact H]|].
  destruct (IH K) as (y & A1 & A2). exists y. split; [now right|exact A2].
Qed.

Lemma Forall2_len {A B} (R : A -> B -> Prop) l l' : Forall2 R l l' -> List.length l = List.length l'.
Proof. induction 1; simpl; congruence. Qed.

Lemma same_either_map l w : same_either (GMap l) w ->
  exists l', w = GMap l' /\ List.length l' = List.length l /\
    (forall k x', In (k, x') l' -> exists x, In (k, x) l /\ same_either x x') /\
    (forall k x, In (k, x) l -> exists x', In (k, x') l').
Proof.
  assert (R : forall l, exists l', GMap l = GMap l' /\ List.length l' = List.length l /\
    (forall k x', In (k, x') l' -> exists x, In (k, x) l /\ same_either x x') /\
    (forall k x, In (k, x) l -> exists x', In (k, x') l')).
  { intros l0. exists l0. repeat split; auto; intros; eauto.
    exists x'. split; [assumption|]. left. constructor. }
  intros [H|H]; inversion H as [u E0|la lb F E1 E2|l0 l' l'' F Pm E1 E2]; subst; try apply R.
  - exists l''. split; [reflexivity|]. split.
    { rewrite <- (Permutation_length Pm). symmetry. eapply Forall2_len; eauto. }
    split.
    + intros k x' K. eapply Permutation_in in K; [|apply Permutation_sym; exact Pm].
      destruct (Forall2_in_r _ _ _ _ F K) as ([k0 x] & A & B & C). simpl in B, C. subst k0.
      exists x. split; [exact A|now left].
    + intros k x K. destruct (Forall2_in_l _ _ _ _ F K) as ([k0 x'] & A & B & C).
      simpl in B, C. subst k0. exists x'. eapply Permutation_in; eauto.
  - exists l0. split; [reflexivity|]. split.
    { rewrite <- (Permutation_length Pm). eapply Forall2_len; eauto. }
    split.
    + intros k x' K. destruct (Forall2_in_l _ _ _ _ F K) as ([k0 x] & A & B & C).
      simpl in B, C. subst k0. exists x. split; [eapply Permutation_in; eauto|now right].
    + intros k x K. eapply Permutation_in in K; [|apply Permutation_sym; exact Pm].
      destruct (Forall2_in_r _ _ _ _ F K) as ([k0 x'] & A & B & C). simpl in B, C. subst k0.
      exists x'. exact A.
Qed.

Lemma same_either_leaf v w :
  same_either v w -> (forall l, v <> GArr l) -> (forall l, v <> GMap l) -> w = v.
Proof.
  intros [H|H] A B; inversion H; subst; auto; exfalso; try (eapply A; reflexivity); eapply B; reflexivity.
Qed.

Lemma json_either O v w : json_order_free O -> same_either v w -> o_json O v = o_json O w.
Proof. intros H [S|S]; [|symmetry]; apply H; exact S. Qed.

(** Scalars accept neither arrays nor maps, except any-like kinds. *)
Lemma scalar_accepts_leaf O h P sh v :
  scalar_validate O sh v <> None ->
  shape_accepts O h P sh v -> (forall Q w, shape_accepts O h Q sh w) \/
  ((forall l, v <> GArr l) /\ (forall l, v <> GMap l)).
Proof.
  intros N H.
  destruct sh; simpl in N; try congruence; cbn [shape_accepts] in H |- *; try tauto.
  - right. subst. split; discriminate.
  - right. destruct H as (z & H & _). inversion H; subst; split; discriminate.
  - right. destruct H as (z & H & _). inversion H; subst; split; discriminate.
  - right. destruct H as (z & -> & _). split; discriminate.
  - right. destruct H as (z & -> & _). split; discriminate.
  - right. destruct H as (z & -> & _). split; discriminate.
  - right. destruct H as (z & -> & _). split; discriminate.
  - right. destruct H as (z & -> & _). split; discriminate.
  - right. destruct H as (z & -> & _). split; discriminate.
  - right. destruct H as (z & -> & _). split; discriminate.
Qed.

Lemma scalar_accepts_P O h P Q sh v :
  scalar_validate O sh v <> None -> shape_accepts O h P sh v -> shape_accepts O h Q sh v.
Proof. destruct sh; simpl; try congruence; auto. Qed.

Lemma valid_order O h : json_order_free O ->
  forall a v, valid O h a v -> forall w, same_either v w -> valid O h a w.
Proof.
  intros HJ a v H. apply H. clear a v H. intros a v (sh & Hsh & H) w S.
  apply valid_fold. exists sh. split; [exact Hsh|].
  destruct (scalar_validate O sh v) as [r|] eqn:Er.
  { assert (N : scalar_validate O sh v <> None) by congruence.
    destruct (scalar_accepts_leaf O h _ sh v N H) as [K|[K1 K2]]; [apply K|].
    rewrite (same_either_leaf v w S K1 K2). eapply scalar_accepts_P; [|exact H]. congruence. }
  destruct sh; simpl in Er; try discriminate; cbn [shape_accepts] in H |- *.
  - destruct H as (l & -> & A & B & C & D).
    apply same_either_arr in S. destruct S as (l' & -> & L & S).
    exists l'. split; [reflexivity|]. rewrite L. split; [exact A|]. split; [exact B|]. split.
    + intros i x Hi Hx. apply In_nth_error in Hx. destruct Hx as [j Hj].
      destruct (S j x Hj) as (y & Y1 & Y2). apply (C i y); auto. eapply nth_error_In; eauto.
    + intros U. destruct (D U) as [D1 D2]. split.
      * intros x Hx. apply In_nth_error in Hx. destruct Hx as [j Hj].
        destruct (S j x Hj) as (y & Y1 & Y2). rewrite <- (json_either O y x HJ Y2).
        apply D1. eapply nth_error_In; eauto.
      * intros i j x y Hi Hj N.
        destruct (S i x Hi) as (x0 & X1 & X2). destruct (S j y Hj) as (y0 & Y1 & Y2).
        rewrite <- (json_either O x0 x HJ X2), <- (json_either O y0 y HJ Y2).
        exact (D2 i j x0 y0 X1 Y1 N).
  - destruct H as (kvs & ps & pps & -> & A1 & A2 & A3 & A4 & A5 & A6 & A7).
    apply same_either_map in S. destruct S as (kvs' & -> & L & S1 & S2).
    exists kvs', ps, pps. rewrite L. repeat (split; [solve [auto]|]). split; [|split].
    + intros k p K R. destruct (A5 k p K R) as [x Hx]. eapply S2; eauto.
    + intros k x p Hin E. destruct (S1 k x Hin) as (y & Y1 & Y2). eapply A6; eauto.
    + intros k x Hin E. destruct (S1 k x Hin) as (y & Y1 & Y2).
      destruct (A7 k y Y1 E) as [B1 B2]. split; [exact B1|].
      destruct B2 as [B2|(k' & p & C1 & C2 & C3)]; [now left|]. right.
      exists k', p. auto.
  - destruct H as (l & m & A & B & C). exists l, m. auto.
  - apply H. exact S.
Qed.

Lemma verdict_order O h a sh v w :
  oracle_wf O -> hash_injective O -> json_order_free O -> closed h -> guarded h ->
  shape_at h a sh -> value_wf v -> value_wf w -> same_value v w ->
  (returns_nil O h a v <-> returns_nil O h a w).
Proof.
  intros HO HI HJ HC HG Hsh Hv Hw S.
  rewrite (proj1 (verdict O h a sh v HO HI HC HG Hsh Hv)),
          (proj1 (verdict O h a sh w HO HI HC HG Hsh Hw)).
  split; intros H; eapply valid_order; eauto; [left|right]; exact S.
Qed.

(** Without termination: two orders never give contradictory verdicts. *)
Lemma order_no_contradiction O h a v w :
  oracle_wf O -> hash_injective O -> json_order_free O ->
  value_wf v -> value_wf w -> same_value v w ->
  returns_nil O h a v -> ~ returns_error O h a w.
Proof.
  intros HO HI HJ Hv Hw S [n Hn] [m Hm].
  eapply validate_complete; eauto. eapply valid_order; eauto; [|left; exact S].
  eapply validate_sound; eauto.
Qed.
