(** Proofs about Yaml.v. *)
From Coq Require Import ZArith List String Bool Ascii Permutation Lia.
From Verif Require Import Base Names Yaml Spec_Yaml Heap Validate Spec_Validate Check_proofs.
Import ListNotations.
Open Scope string_scope.
Open Scope list_scope.
Open Scope nat_scope.

Section YInd.
Variable P : ynode -> Prop.
Hypothesis H : forall k t v cs, Forall P cs -> P (Y k t v cs).
Fixpoint ynode_ind2 (n : ynode) : P n :=
  match n with
  | Y k t v cs =>
      H k t v cs ((fix go (l : list ynode) : Forall P l :=
                     match l with [] => Forall_nil P | x :: l' => Forall_cons x (ynode_ind2 x) (go l') end) cs)
  end.
End YInd.

Lemma to_data_eq s k t v cs :
  to_data s (Y k t v cs) =
  match k with
  | KOther | KAlias => Err
  | KDoc => match cs with [] => Panic | c :: _ => to_data s c end
  | KScalar => s (Y k t v cs)
  | KMap => if negb (Nat.even (List.length cs)) then Err else map_pairs (to_data s) cs []
  | KSeq => rbind (seq_items (to_data s) cs) (fun ds => Ok (GArr ds))
  end.
Proof.
  destruct k; try reflexivity.
  - simpl. f_equal. induction cs as [|c cs IH]; [reflexivity|]. cbn [seq_items]. now rewrite IH.
  - cbn [to_data]. destruct (negb (Nat.even (List.length cs))); [reflexivity|].
    generalize (@nil (string * gval)). remember (List.length cs) as n eqn:En.
    assert (L : List.length cs <= n) by lia. clear En. revert cs L.
    induction n as [|n IH]; intros [|c [|d cs]] L m; try reflexivity; [simpl in L; lia|].
    cbn [map_pairs]. destruct (to_data s d); try reflexivity. cbn [rbind]. apply IH. simpl in L. lia.
Qed.

(** * Association lists *)
Lemma oset_in {A} k (d : A) m : NoDup (map fst m) -> forall k' v,
  In (k', v) (oset k d m) <-> (k' = k /\ v = d) \/ (k' <> k /\ In (k', v) m).
Proof.
  induction m as [|[k0 v0] m IH]; intros ND k' v; simpl.
  - split; [intros [E|[]]; injection E as <- <-; tauto|]. intros [[-> ->]|[_ []]]. tauto.
  - inversion ND; subst. destruct (String.eqb_spec k k0) as [<-|N]; simpl.
    + split.
      * intros [E|E]; [injection E as <- <-; tauto|]. right. split; [|tauto].
        intros ->. apply H1. apply (in_map fst) in E. exact E.
      * intros [[-> ->]|[Nk [E|E]]]; [tauto|injection E as <- _; tauto|tauto].
    + rewrite (IH H2). split.
      * intros [E|[E|[E1 E2]]]; [injection E as <- <-; right; split; [congruence|tauto]|tauto|tauto].
      * intros [E|[Nk [E|E]]]; tauto.
Qed.

Lemma oset_keys {A} k (d : A) m : NoDup (map fst m) -> NoDup (map fst (oset k d m)).
Proof.
  induction m as [|[k0 v0] m IH]; intros ND; simpl.
  - repeat constructor. simpl. tauto.
  - inversion ND; subst. destruct (String.eqb_spec k k0) as [<-|N]; simpl; [constructor; auto|].
    constructor; [|auto]. intros E. apply in_map_iff in E. destruct E as ([k' v'] & E & I). simpl in E. subst k'.
    apply oset_in in I; [|assumption]. destruct I as [[E _]|[_ I]]; [congruence|].
    apply H1. apply (in_map fst) in I. exact I.
Qed.

Lemma last_pair_snoc {A} (vs : list (string * A)) k d k' v :
  last_pair (vs ++ [(k, d)]) k' v <-> (k' = k /\ v = d) \/ (k' <> k /\ last_pair vs k' v).
Proof.
  split.
  - intros (b & a & E & N). destruct (rev a) as [|x ra] eqn:Er.
    + assert (a = []) by (rewrite <- (rev_involutive a), Er; reflexivity). subst a.
      apply app_inj_tail in E. destruct E as [_ E]. injection E as -> ->. auto.
    + assert (Ea : a = rev ra ++ [x]) by (rewrite <- (rev_involutive a), Er; reflexivity). subst a.
      rewrite app_comm_cons, app_assoc in E. apply app_inj_tail in E. destruct E as [-> <-].
      rewrite map_app in N. right. split.
      * intros ->. apply N. apply in_or_app. right. now left.
      * exists b, (rev ra). split; [reflexivity|]. intros K. apply N. apply in_or_app. now left.
  - intros [[-> ->]|[Nk (b & a & -> & N)]].
    + exists vs, []. split; [reflexivity|]. simpl. tauto.
    + exists b, (a ++ [(k, d)]). split; [now rewrite <- app_assoc|]. rewrite map_app. intros K.
      apply in_app_or in K. destruct K as [K|[K|[]]]; [tauto|]. simpl in K. congruence.
Qed.

Definition good_map (vs m : list (string * gval)) : Prop :=
  NoDup (map fst m) /\ forall k v, In (k, v) m <-> last_pair vs k v.

Lemma good_nil : good_map [] [].
Proof.
  split; [constructor|]. intros k v. split; [intros []|]. intros (b & a & E & _). destruct b; discriminate.
Qed.

Lemma good_set vs m k d : good_map vs m -> good_map (vs ++ [(k, d)]) (oset k d m).
Proof.
  intros [ND G]. split; [now apply oset_keys|]. intros k' v. rewrite oset_in by assumption.
  rewrite last_pair_snoc, G. tauto.
Qed.

(** * Soundness *)
Lemma map_pairs_sound (conv : ynode -> res gval) (R : ynode -> gval -> Prop) :
  forall n cs vs0 m r, List.length cs <= n -> Nat.even (List.length cs) = true ->
  (forall c v, In c cs -> conv c = Ok v -> R c v) ->
  good_map vs0 m -> map_pairs conv cs m = Ok r ->
  exists ps vs m', pairs_of cs ps /\ Forall2 (fun p q => fst p = fst q /\ R (snd p) (snd q)) ps vs
    /\ good_map (vs0 ++ vs) m' /\ r = GMap m'.
Proof.
  induction n as [|n IH]; intros [|k [|c cs]] vs0 m r L Ev HR G E; try discriminate Ev; try (simpl in L; lia).
  - injection E as <-. exists [], [], m. rewrite app_nil_r. repeat split; try constructor; apply G.
  - injection E as <-. exists [], [], m. rewrite app_nil_r. repeat split; try constructor; apply G.
  - cbn [map_pairs] in E. destruct (conv c) as [d| | |] eqn:Ec; try discriminate. cbn [rbind] in E.
    apply (IH cs (vs0 ++ [(y_value k, d)])) in E; [|simpl in L; lia|exact Ev| |now apply good_set].
    + destruct E as (ps & vs & m' & P1 & P2 & P3 & ->).
      exists ((y_value k, c) :: ps), ((y_value k, d) :: vs), m'. split; [now constructor|].
      split; [|split; [|reflexivity]].
      * constructor; [|assumption]. simpl. split; [reflexivity|]. apply HR; [simpl; tauto|assumption].
      * rewrite <- app_assoc in P3. exact P3.
    + intros x v Hx. apply HR. simpl. tauto.
Qed.

Lemma seq_items_sound conv (R : ynode -> gval -> Prop) cs : forall vs,
  (forall c v, In c cs -> conv c = Ok v -> R c v) -> seq_items conv cs = Ok vs -> Forall2 R cs vs.
Proof.
  induction cs as [|c cs IH]; intros vs HR E; cbn [seq_items] in E.
  - injection E as <-. constructor.
  - destruct (conv c) as [d| | |] eqn:Ec; try discriminate. cbn [rbind] in E.
    destruct (seq_items conv cs) as [ds| | |]; try discriminate. injection E as <-.
    constructor; [apply HR; [now left|assumption]|]. apply IH; [|reflexivity]. intros x v Hx. apply HR. now right.
Qed.

Lemma existsb_In x l : existsb (String.eqb x) l = true <-> In x l.
Proof.
  rewrite existsb_exists. split; [intros (y & A & B); apply String.eqb_eq in B; now subst|].
  intros I. exists x. split; [assumption|apply String.eqb_refl].
Qed.

Section Env.
Variable E : yenv.

Lemma to_data_sound (f : ynode -> res gval) (inc : ynode -> gval -> Prop) :
  (forall n v, y_kind n = KScalar -> y_tag n = "!include" -> f n = Ok v -> inc n v) ->
  forall n v, to_data (scalar_data E f) n = Ok v -> data E inc n v.
Proof.
  intros HI. apply (ynode_ind2 (fun n => forall v, to_data (scalar_data E f) n = Ok v -> data E inc n v)).
  intros k t v cs IH r R. rewrite to_data_eq in R. rewrite Forall_forall in IH.
  destruct k; try discriminate.
  - destruct cs as [|c cs]; [discriminate|]. apply da_doc. apply IH; [now left|assumption].
  - destruct (seq_items (to_data (scalar_data E f)) cs) as [ds| | |] eqn:Es; try discriminate.
    injection R as <-. apply da_seq. eapply seq_items_sound; [|exact Es]. intros c w Hc. now apply IH.
  - destruct (Nat.even (List.length cs)) eqn:Ev; [|discriminate]. cbn [negb] in R.
    eapply (map_pairs_sound _ (data E inc) (List.length cs) cs []) in R; eauto using good_nil.
    destruct R as (ps & vs & m & P1 & P2 & [P3 P4] & ->). simpl in P4. eapply da_map; eauto.
  - unfold scalar_data in R. cbn [y_tag y_value] in R.
    destruct (String.eqb_spec t "!!str") as [->|N1]; [injection R as <-; apply da_str|].
    destruct (String.eqb_spec t "!!timestamp") as [->|N2]; [injection R as <-; apply da_time|].
    destruct (String.eqb_spec t "!include") as [->|N3].
    + apply da_include. apply HI; auto.
    + destruct (e_scalar E t v) as [w|] eqn:Ew; [|discriminate]. injection R as <-.
      apply da_scalar; [|assumption]. simpl. intros [K|[K|[K|[]]]]; congruence.
Qed.

Lemma included_sound n v : data_included E n = Ok v -> data_flat E n v.
Proof. apply to_data_sound. discriminate. Qed.

Lemma include_scalar_iff1 loc n v : include_scalar E loc n = Ok v -> includes E loc n v.
Proof.
  unfold include_scalar, includes. destruct (e_read E (e_join E loc (y_value n))) as [text|]; [|discriminate].
  intros R. exists text. split; [reflexivity|].
  destruct (existsb (String.eqb (e_ext E (y_value n))) [".yaml"; ".yml"]) eqn:Ex.
  - apply existsb_In in Ex. left. split; [assumption|].
    destruct (e_yaml E text) as [d|]; [|discriminate]. exists d. split; [reflexivity|]. now apply included_sound.
  - right. split; [|congruence]. intros K. apply existsb_In in K. congruence.
Qed.

Theorem data_node_sound loc n v : data_node E loc n = Ok v -> data E (includes E loc) n v.
Proof. apply to_data_sound. intros m w _ _. apply include_scalar_iff1. Qed.

(** * Completeness *)
Lemma pairs_even cs ps : pairs_of cs ps -> Nat.even (List.length cs) = true.
Proof. induction 1; [reflexivity|exact IHpairs_of]. Qed.

Definition sv2 (p q : string * gval) : Prop := fst p = fst q /\ same_value (snd p) (snd q).

Lemma sv2_keys l l' : Forall2 sv2 l l' -> map fst l = map fst l'.
Proof. induction 1 as [|[a b] [c d] l l' [Eq _] _ IH]; [reflexivity|]. simpl in *. congruence. Qed.

Lemma last_pair_sv l l' k v : Forall2 sv2 l l' -> last_pair l k v ->
  exists v', last_pair l' k v' /\ same_value v v'.
Proof.
  intros F (b & a & -> & N). apply Forall2_app_inv_l in F. destruct F as (b' & r & F1 & F2 & ->).
  inversion F2 as [|? [k' v'] ? a' [K1 K2] F3]; subst. simpl in *. subst k'. exists v'. split; [|assumption].
  exists b', a'. split; [reflexivity|]. now rewrite <- (sv2_keys _ _ F3).
Qed.

Lemma last_pair_fun {A} (l : list (string * A)) k v v' : last_pair l k v -> last_pair l k v' -> v = v'.
Proof.
  revert v v'. induction l as [|x l IH] using rev_ind; intros v v' H1 H2.
  - destruct H1 as (b & a & Eq & _). destruct b; discriminate.
  - destruct x as [k0 d]. apply last_pair_snoc in H1. apply last_pair_snoc in H2.
    destruct H1 as [[X1 X2]|[X1 X2]], H2 as [[Y1 Y2]|[Y1 Y2]]; subst; try congruence. eauto.
Qed.

Lemma good_same vs vs' m m' : Forall2 sv2 vs vs' -> good_map vs m -> good_map vs' m' ->
  same_value (GMap m) (GMap m').
Proof.
  intros F [ND G] [ND' G'].
  assert (Ex : exists l, Forall2 sv2 m l /\ forall p, In p l -> In p m').
  { assert (Hm : forall p, In p m -> In p m) by auto. revert Hm. generalize m at 1 3.
    induction m0 as [|[k v] l IH]; intros Hm.
    - exists []. split; [constructor|intros p []].
    - destruct IH as (l' & F1 & F2); [intros p Hp; apply Hm; now right|].
      assert (Lp : last_pair vs k v) by (apply G, Hm; now left).
      destruct (last_pair_sv _ _ _ _ F Lp) as (v' & Lp' & S).
      exists ((k, v') :: l'). split; [constructor; [split; [reflexivity|exact S]|exact F1]|].
      intros p [<-|Hp]; [now apply G'|auto]. }
  destruct Ex as (l & F1 & F2). eapply sv_map; [exact F1|].
  assert (NDl : NoDup (map fst l)) by (rewrite <- (sv2_keys _ _ F1); exact ND).
  apply NoDup_Permutation.
  - eapply NoDup_map_inv; eauto.
  - eapply NoDup_map_inv; eauto.
  - intros [k v']. split; [apply F2|]. intros I. apply G' in I.
    assert (In k (map fst l)).
    { rewrite <- (sv2_keys _ _ F1).
      assert (exists v, last_pair vs k v).
      { destruct I as (b & a & -> & N). apply Forall2_app_inv_r in F. destruct F as (b0 & r & F3 & F4 & ->).
        inversion F4 as [|[k0 v0] ? a0 ? [K1 K2] F5]; subst. simpl in *. subst k0.
        exists v0. exists b0, a0. split; [reflexivity|]. now rewrite (sv2_keys _ _ F5). }
      destruct H as (v & Lv). apply G in Lv. apply (in_map fst) in Lv. exact Lv. }
    apply in_map_iff in H. destruct H as ([k0 v0] & Ek & I0). simpl in Ek. subst k0.
    pose proof (F2 _ I0) as I1. apply G' in I1. rewrite (last_pair_fun _ _ _ _ I I1). exact I0.
Qed.

Lemma map_pairs_complete conv (R : ynode -> gval -> Prop) cs ps : pairs_of cs ps ->
  forall vs vs0 m, (forall c v, In c cs -> R c v -> exists v', conv c = Ok v' /\ same_value v' v) ->
  Forall2 (fun p q => fst p = fst q /\ R (snd p) (snd q)) ps vs -> good_map vs0 m ->
  exists vs' m', map_pairs conv cs m = Ok (GMap m') /\ good_map (vs0 ++ vs') m' /\ Forall2 sv2 vs' vs.
Proof.
  induction 1 as [|k c cs ps PO IH]; intros vs vs0 m HR F G.
  - inversion F; subst. exists [], m. rewrite app_nil_r. repeat split; try constructor; apply G.
  - inversion F as [|? [k' v] ? vs1 [K1 K2] F1]; subst. simpl in K1, K2. subst k'.
    destruct (HR c v ltac:(simpl; tauto) K2) as (d & Ed & Sd).
    destruct (IH vs1 (vs0 ++ [(y_value k, d)]) (oset (y_value k) d m)) as (vs' & m' & Eq1 & G1 & F2); auto.
    { intros x w Hx. apply HR. simpl. tauto. }
    { now apply good_set. }
    exists ((y_value k, d) :: vs'), m'. split; [|split].
    + cbn [map_pairs]. rewrite Ed. exact Eq1.
    + now rewrite <- app_assoc in G1.
    + constructor; [split; [reflexivity|exact Sd]|exact F2].
Qed.

Lemma seq_items_complete conv (R : ynode -> gval -> Prop) cs vs : Forall2 R cs vs ->
  (forall c v, In c cs -> R c v -> exists v', conv c = Ok v' /\ same_value v' v) ->
  exists vs', seq_items conv cs = Ok vs' /\ Forall2 same_value vs' vs.
Proof.
  induction 1 as [|c v cs vs Rc F IH]; intros HR; [exists []; split; [reflexivity|constructor]|].
  destruct (HR c v (or_introl eq_refl) Rc) as (d & Ed & Sd).
  destruct IH as (ds & Es & Ss). { intros x w Hx. apply HR. now right. }
  exists (d :: ds). cbn [seq_items]. rewrite Ed. cbn [rbind]. rewrite Es. split; [reflexivity|now constructor].
Qed.

Lemma to_data_complete (f : ynode -> res gval) (inc : ynode -> gval -> Prop) :
  (forall n v, y_tag n = "!include" -> inc n v -> exists v', f n = Ok v' /\ same_value v' v) ->
  forall n v, data E inc n v -> exists v', to_data (scalar_data E f) n = Ok v' /\ same_value v' v.
Proof.
  intros HI.
  apply (ynode_ind2 (fun n => forall v, data E inc n v ->
    exists v', to_data (scalar_data E f) n = Ok v' /\ same_value v' v)).
  intros k t v cs IH r R. rewrite Forall_forall in IH. rewrite to_data_eq.
  inversion R as [tag value c cs' w D|value cs'|value cs'|value cs' w I|tag value cs' w N Ew
                 |tag value cs' vs F|tag value cs' ps vs m PO F ND G]; subst; cbn [y_tag y_value].
  - destruct (IH c (or_introl eq_refl) _ D) as (w & Ew & Sw). eauto.
  - eexists. split; [reflexivity|constructor].
  - eexists. split; [reflexivity|constructor].
  - apply HI; [reflexivity|exact I].
  - unfold scalar_data; cbn [y_tag y_value].
    destruct (String.eqb_spec t "!!str") as [->|]; [simpl in N; tauto|].
    destruct (String.eqb_spec t "!!timestamp") as [->|]; [simpl in N; tauto|].
    destruct (String.eqb_spec t "!include") as [->|]; [simpl in N; tauto|].
    rewrite Ew. eexists. split; [reflexivity|constructor].
  - destruct (seq_items_complete (to_data (scalar_data E f)) _ _ _ F) as (vs' & Es & Ss).
    { intros c w Hc. now apply IH. }
    rewrite Es. eexists. split; [reflexivity|]. now apply sv_arr.
  - rewrite (pairs_even _ _ PO). cbn [negb].
    destruct (map_pairs_complete (to_data (scalar_data E f)) (data E inc) _ _ PO vs [] []) as (vs' & m' & Eq1 & G1 & F2); auto using good_nil.
    rewrite Eq1. eexists. split; [reflexivity|]. eapply good_same; [exact F2|exact G1|split; assumption].
Qed.

Lemma included_complete n v : data_flat E n v -> exists v', data_included E n = Ok v' /\ same_value v' v.
Proof. apply to_data_complete. intros m w _ []. Qed.

Theorem data_node_complete loc n v : data E (includes E loc) n v ->
  exists v', data_node E loc n = Ok v' /\ same_value v' v.
Proof.
  apply to_data_complete. intros m w _ (text & ER & H). unfold include_scalar. rewrite ER.
  destruct H as [(I & d & Ed & D)|(N & ->)].
  - apply existsb_In in I. rewrite I, Ed. now apply included_complete.
  - destruct (existsb (String.eqb (e_ext E (y_value m))) [".yaml"; ".yml"]) eqn:Ex.
    + apply existsb_In in Ex. contradiction.
    + eexists. split; [reflexivity|constructor].
Qed.

(** * No panic *)
Definition returns_ {A} (r : res A) : Prop := (exists a, r = Ok a) \/ r = Err.

Lemma to_data_returns (s : ynode -> res gval) :
  (forall n, returns_ (s n)) -> forall n, parsed n -> returns_ (to_data s n).
Proof.
  intros Hs. apply (ynode_ind2 (fun n => parsed n -> returns_ (to_data s n))).
  intros k t v cs IH PA. inversion PA as [k' t' v' cs' F D M]; subst. rewrite Forall_forall in IH, F.
  rewrite to_data_eq. destruct k; try (now right).
  - destruct cs as [|c cs]; [destruct (D eq_refl eq_refl)|]. apply IH; [now left|apply F; now left].
  - assert (K : returns_ (seq_items (to_data s) cs)).
    { clear D M PA. revert IH F. induction cs as [|c cs IHc]; intros IH F; [left; exists []; reflexivity|]. cbn [seq_items].
      destruct (IH c (or_introl eq_refl) (F c (or_introl eq_refl))) as [[d ->]| ->]; [|now right].
      cbn [rbind].
      assert (K : returns_ (seq_items (to_data s) cs)).
      { apply IHc; intros x Hx; [apply IH|apply F]; now right. }
      destruct K as [[ds ->]| ->]; [left; exists (d :: ds); reflexivity|now right]. }
    destruct K as [[ds ->]| ->]; [left; simpl; eauto|now right].
  - rewrite (M eq_refl). cbn [negb]. clear -IH F. generalize (@nil (string * gval)).
    remember (List.length cs) as n eqn:En. assert (L : List.length cs <= n) by lia. clear En. revert cs IH F L.
    induction n as [|n IHn]; intros [|k [|c cs]] IH F L m; try (left; eexists; reflexivity); try (simpl in L; lia).
    cbn [map_pairs]. destruct (IH c ltac:(simpl; tauto) (F c ltac:(simpl; tauto))) as [[d ->]| ->]; [|now right].
    cbn [rbind]. apply IHn; [intros x Hx; apply IH; simpl; tauto|intros x Hx; apply F; simpl; tauto|simpl in L; lia].
  - apply Hs.
Qed.

Lemma scalar_data_returns f n : returns_ (f n) -> returns_ (scalar_data E f n).
Proof.
  intros Hf. unfold scalar_data. destruct (String.eqb (y_tag n) "!!str"); [left; eauto|].
  destruct (String.eqb (y_tag n) "!!timestamp"); [left; eauto|].
  destruct (String.eqb (y_tag n) "!include"); [exact Hf|].
  destruct (e_scalar E (y_tag n) (y_value n)); [left; eauto|now right].
Qed.

Lemma include_scalar_returns loc n : (forall text d, e_yaml E text = Some d -> parsed d) ->
  returns_ (include_scalar E loc n).
Proof.
  intros HY. unfold include_scalar. destruct (e_read E (e_join E loc (y_value n))) as [text|]; [|now right].
  destruct (existsb (String.eqb (e_ext E (y_value n))) [".yaml"; ".yml"]); [|left; eauto].
  destruct (e_yaml E text) as [d|] eqn:Ed; [|now right].
  apply to_data_returns; [|eapply HY; eauto]. intros m. apply scalar_data_returns. now right.
Qed.

Theorem data_node_returns loc n : (forall text d, e_yaml E text = Some d -> parsed d) -> parsed n ->
  returns_ (data_node E loc n).
Proof.
  intros HY. apply to_data_returns. intros m. apply scalar_data_returns. now apply include_scalar_returns.
Qed.

Theorem root_node_returns loc n : (forall text d, e_yaml E text = Some d -> parsed d) -> parsed n ->
  returns_ (root_node E loc n).
Proof.
  intros HY HP. unfold root_node. destruct (String.eqb (y_tag n) "!include").
  - unfold included_node. destruct (e_read E (e_join E loc (y_value n))) as [text|]; [|now right].
    destruct (String.eqb (e_ext E (y_value n)) ".json"); [destruct (e_json E text); [left; eauto|now right]|].
    destruct (existsb (String.eqb (e_ext E (y_value n))) [".yaml"; ".yml"]); [|left; eauto].
    destruct (e_yaml E text) as [d|] eqn:Ed; [|now right]. apply data_node_returns; eauto.
  - destruct (y_value n) as [|c s]; [now apply data_node_returns|].
    destruct (Ascii.eqb c "{"%char); [|now apply data_node_returns].
    destruct (e_json E (String c s)); [left; eauto|now right].
Qed.

(** * Rejections *)
Lemma pairs_fun cs ps ps' : pairs_of cs ps -> pairs_of cs ps' -> ps = ps'.
Proof.
  intros H. revert ps'. induction H as [|k v l ps PO IH]; intros ps' K; inversion K; subst; [reflexivity|].
  f_equal. auto.
Qed.

Lemma Forall2_in_l {A B} (R : A -> B -> Prop) l l' x : Forall2 R l l' -> In x l -> exists y, In y l' /\ R x y.
Proof.
  induction 1 as [|a b l l' HR F IH]; [intros []|]. intros [<-|I]; [exists b; simpl; auto|].
  destruct (IH I) as (y & Hy & Ry). exists y. simpl. auto.
Qed.

Lemma occurs_data inc n m : occurs n m -> forall v, data E inc n v -> exists w, data E inc m w.
Proof.
  induction 1 as [n|t v0 c cs m O IH|t v0 cs c m I O IH|t v0 cs ps k c m PO I O IH]; intros v D.
  - eauto.
  - inversion D; subst. eauto.
  - inversion D as [| | | | |tag value cs' vs F|]; subst.
    destruct (Forall2_in_l _ _ _ _ F I) as (w & _ & Dw). eauto.
  - inversion D as [| | | | | |tag value cs' ps' vs m' PO' F ND G]; subst.
    rewrite (pairs_fun _ _ _ PO' PO) in F.
    destruct (Forall2_in_l _ _ _ _ F I) as ([k' w] & _ & _ & Dw). eauto.
Qed.

Theorem alias_rejected loc n m v : occurs n m -> y_kind m = KAlias -> data_node E loc n <> Ok v.
Proof.
  intros O K R. apply data_node_sound in R. destruct (occurs_data _ _ _ O _ R) as (w & D).
  destruct m. simpl in K. subst. inversion D.
Qed.

Theorem nested_include_rejected loc n m text d m' v :
  occurs n m -> y_kind m = KScalar -> y_tag m = "!include" ->
  e_read E (e_join E loc (y_value m)) = Some text -> In (e_ext E (y_value m)) [".yaml"; ".yml"] ->
  e_yaml E text = Some d -> occurs d m' -> y_kind m' = KScalar -> y_tag m' = "!include" ->
  data_node E loc n <> Ok v.
Proof.
  intros O K T ER EX EY O' K' T' R. apply data_node_sound in R.
  destruct (occurs_data _ _ _ O _ R) as (w & D). destruct m as [k t va cs]. simpl in *. subst.
  inversion D as [| | |value cs' w' (text' & ER' & H)|tag value cs' w' N Ew| |]; subst; [|simpl in N; tauto].
  simpl in *. assert (text' = text) by congruence. subst.
  destruct H as [(_ & d' & Ed & Dd)|(N & _)]; [|tauto]. assert (d' = d) by congruence. subst.
  destruct (occurs_data _ _ _ O' _ Dd) as (x & Dx). destruct m' as [k t va' cs'']. simpl in *. subst.
  inversion Dx; subst; [contradiction|simpl in *; tauto].
Qed.

Theorem root_node_sound loc n v : root_node E loc n = Ok v -> root_denotes E loc n v.
Proof.
  unfold root_node. destruct (String.eqb_spec (y_tag n) "!include") as [T|T].
  - unfold included_node. destruct (e_read E (e_join E loc (y_value n))) as [text|] eqn:ER; [|discriminate].
    destruct (String.eqb_spec (e_ext E (y_value n)) ".json") as [EX|NX].
    + destruct (e_json E text) as [w|] eqn:EJ; [|discriminate]. intros R. injection R as <-.
      eapply rd_json_file; eauto.
    + destruct (existsb (String.eqb (e_ext E (y_value n))) [".yaml"; ".yml"]) eqn:EX.
      * apply existsb_In in EX. destruct (e_yaml E text) as [d|] eqn:EY; [|discriminate]. intros R.
        eapply rd_yaml_file; eauto. now apply data_node_sound.
      * intros R. injection R as <-. eapply rd_text_file; eauto. intros [K|K]; [congruence|].
        apply existsb_In in K. congruence.
  - destruct (y_value n) as [|c s] eqn:EV.
    + intros R. apply rd_node; auto; [intros s; congruence|]. now apply data_node_sound.
    + destruct (Ascii.eqb_spec c "{"%char) as [->|N].
      * destruct (e_json E (String "{" s)) as [w|] eqn:EJ; [|discriminate]. intros R. injection R as <-.
        eapply rd_inline_json; eauto. now rewrite EV.
      * intros R. apply rd_node; auto; [intros s'; congruence|]. now apply data_node_sound.
Qed.

Theorem root_node_complete loc n v : root_denotes E loc n v ->
  exists v', root_node E loc n = Ok v' /\ same_value v' v.
Proof.
  intros H. unfold root_node.
  inversion H as [text w T EX ER EJ|text d w T EX ER EY D|text T EX ER|s w T EV EJ|w T EV D]; subst.
  - rewrite T, String.eqb_refl. unfold included_node. rewrite ER, EX, String.eqb_refl, EJ.
    eexists. split; [reflexivity|constructor].
  - rewrite T, String.eqb_refl. unfold included_node. rewrite ER.
    destruct (String.eqb_spec (e_ext E (y_value n)) ".json") as [EX'|_].
    + rewrite EX' in EX. simpl in EX. destruct EX as [K|[K|[]]]; discriminate.
    + apply existsb_In in EX. rewrite EX, EY. now apply data_node_complete.
  - rewrite T, String.eqb_refl. unfold included_node. rewrite ER.
    destruct (String.eqb_spec (e_ext E (y_value n)) ".json") as [EX'|_]; [rewrite EX' in EX; simpl in EX; tauto|].
    destruct (existsb (String.eqb (e_ext E (y_value n))) [".yaml"; ".yml"]) eqn:X.
    + apply existsb_In in X. simpl in *. tauto.
    + eexists. split; [reflexivity|constructor].
  - destruct (String.eqb_spec (y_tag n) "!include") as [T'|_]; [contradiction|].
    rewrite EV in EJ |- *. rewrite Ascii.eqb_refl, EJ. eexists. split; [reflexivity|constructor].
  - destruct (String.eqb_spec (y_tag n) "!include") as [T'|_]; [contradiction|].
    destruct (y_value n) as [|c s] eqn:EY; [now apply data_node_complete|].
    destruct (Ascii.eqb_spec c "{"%char) as [->|N]; [exfalso; eapply EV; reflexivity|]. now apply data_node_complete.
Qed.

End Env.
