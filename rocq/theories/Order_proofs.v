(** Proofs about the exact result of deriving objects and arrays whose parts do
    not contain the type itself: order of the properties, no change of kind. *)
From Coq Require Import ZArith List String Bool Lia.
From Verif Require Import Base Scalars Heap Heap_lemmas Spec_Validate Spec_Model Spec_Narrow Narrow_proofs Spec_Region Region_proofs.
Import ListNotations.
Open Scope string_scope.
Open Scope list_scope.
Open Scope nat_scope.

Lemma oget_none_app {A} k (l e : omap A) : oget k l = None -> oget k (l ++ e) = oget k e.
Proof. induction l as [|[k' v] l IH]; simpl; auto. destruct (String.eqb k k'); [discriminate|auto]. Qed.
Lemma oget_none_in {A} k (l : omap A) : ~ In k (map fst l) -> oget k l = None.
Proof.
  induction l as [|[k' v] l IH]; simpl; auto. intros N. destruct (String.eqb_spec k k') as [->|D]; [tauto|]. apply IH. tauto.
Qed.
Lemma filter_keys (f : string * prop -> bool) l k : In k (map fst (filter f l)) -> In k (map fst l).
Proof. rewrite !in_map_iff. intros (x & X & Y). apply filter_In in Y. exists x. tauto. Qed.

Lemma closed_same R h h' : closed R h -> (forall a, R a -> nth_error h' a = nth_error h a) -> closed R h'.
Proof. intros C E a c Ra G. rewrite E in G by auto. eauto. Qed.

Section Order.
Variable R : addr -> Prop.
Variable n0 : nat.
Hypothesis New : forall a, n0 <= a -> R a.
Variable rec : addr -> addr -> M addr.
Hypothesis Hrec : forall a b, R a -> R b -> stays R n0 (rec a b) R.

Lemma stays_run {A} (m : M A) Q s x s' : stays R n0 m Q -> inv R n0 s -> m s = (Ok x, s') ->
  inv R n0 s' /\ untouched R (heap s) (heap s') /\ Q x.
Proof. intros S I E. destruct (S s I) as (A1 & A2 & A3). unfold after in *. rewrite E in *. eauto. Qed.

(** Writing a map outside the region. *)
Lemma inv_write a c s : ~ R a -> inv R n0 s -> inv R n0 (after (write a c) s).
Proof.
  intros N [L C]. split; unfold after, write; simpl; [now rewrite upd_length|].
  eapply closed_same; eauto. intros x Rx. simpl. apply nth_error_upd_neq. congruence.
Qed.

Lemma map_order tm sm ks l : ~ R tm -> ~ R sm -> tm <> sm -> NoDup (map fst ks) -> props_in R l -> props_in R ks ->
  forall n i s u s', i <= List.length ks -> inv R n0 s ->
  get_props (heap s) sm = Some ks -> get_props (heap s) tm = Some (l ++ missing l (firstn i ks)) ->
  loop_props n sm i (fun k sp => bind (rd get_props tm) (fun tl =>
    match oget k tl with
    | Some tp => if p_req sp && negb (p_req tp) then fail else bind (rec (p_base tp) (p_base sp)) (fun _ => ret tt)
    | None => props_set tm k sp
    end)) s = (Ok u, s') ->
  inv R n0 s' /\ (forall a, ~ R a -> a <> tm -> nth_error (heap s') a = nth_error (heap s) a)
  /\ get_props (heap s') tm = Some (l ++ missing l ks).
Proof.
  intros Nt Ns D ND Pl Pk. induction n as [|n IH]; intros i s u s' Li I Gs Gt H; simpl in H; [discriminate|].
  rewrite (bind_ok _ _ _ _ _ (rd_some _ _ _ _ Gs)) in H. destruct (nth_error ks i) as [[k sp]|] eqn:E.
  - apply bind_inv in H. destruct H as ([] & s1 & H1 & H).
    rewrite (bind_ok _ _ _ _ _ (rd_some _ _ _ _ Gt)) in H1.
    assert (Li' : S i <= List.length ks) by (apply nth_error_lt in E; lia).
    assert (F1 : firstn (S i) ks = firstn i ks ++ [(k, sp)]).
    { clear -E. revert i E. induction ks as [|x ks IH]; intros [|i] E; simpl in *; try discriminate.
      - injection E as ->. reflexivity.
      - f_equal. auto. }
    assert (Ni : ~ In k (map fst (firstn i ks))).
    { clear -E ND. revert i E. induction ks as [|[k1 x] ks IH]; intros [|i] E; simpl in *; try discriminate; [tauto|].
      inversion ND; subst. intros [->|Q]; [|eapply IH; eauto]. apply H1. apply nth_error_In in E.
      apply in_map_iff. exists (k, sp). auto. }
    assert (O : oget k (l ++ missing l (firstn i ks)) = oget k l).
    { destruct (oget k l) eqn:O; [now apply oget_app|]. rewrite oget_none_app by auto. apply oget_none_in.
      intros Q. apply filter_keys in Q. auto. }
    assert (Rsp : R (p_base sp)).
    { red in Pk. rewrite Forall_forall in Pk. exact (Pk _ (nth_error_In _ _ E)). }
    assert (STEP : inv R n0 s1 /\ (forall a, ~ R a -> a <> tm -> nth_error (heap s1) a = nth_error (heap s) a)
      /\ get_props (heap s1) tm = Some (l ++ missing l (firstn (S i) ks))).
    { rewrite O in H1. rewrite F1. unfold missing. rewrite filter_app. simpl. destruct (oget k l) as [tp|] eqn:Ol.
      - destruct (p_req sp && negb (p_req tp)); [discriminate|].
        apply bind_inv in H1. destruct H1 as (r & s2 & H1 & H2). injection H2 as <-.
        assert (Rtp : R (p_base tp)).
        { red in Pl. rewrite Forall_forall in Pl. destruct (oget_nth _ _ _ Ol) as (j & J). exact (Pl _ (nth_error_In _ _ J)). }
        destruct (stays_run _ _ _ _ _ (Hrec _ _ Rtp Rsp) I H1) as (I1 & U1 & _). split; auto. split.
        + intros a Na _. apply U1; auto.
        + rewrite app_nil_r. apply get_props_nth. rewrite U1 by auto. now apply get_props_nth.
      - unfold props_set in H1. rewrite (bind_ok _ _ _ _ _ (rd_some _ _ _ _ Gt)) in H1. split.
        + pose proof (inv_write tm (CProps (oset k sp (l ++ missing l (firstn i ks)))) s Nt I) as W.
          unfold after in W. rewrite H1 in W. exact W.
        + injection H1 as <-. split.
          * intros a _ Na. simpl. apply nth_error_upd_neq. congruence.
          * apply get_props_nth. simpl. apply get_props_nth in Gt. rewrite (nth_error_upd_eq _ _ _ _ Gt). f_equal. f_equal.
            rewrite oset_new by congruence. unfold missing. now rewrite <- app_assoc. }
    destruct STEP as (I1 & U1 & G1).
    assert (Gs1 : get_props (heap s1) sm = Some ks) by (apply get_props_nth; rewrite U1 by auto; now apply get_props_nth).
    destruct (IH (S i) s1 u s' Li' I1 Gs1 G1 H) as (I2 & U2 & G2). split; auto. split; auto.
    intros a Na Nt'. rewrite U2 by auto. auto.
  - injection H as <- <-. split; auto. split; auto. apply nth_error_None in E. rewrite firstn_all2 in Gt by auto. auto.
Qed.
End Order.

(** * Whole objects and arrays *)

Section Whole.
Variable R : addr -> Prop.
Variable n0 : nat.
Hypothesis New : forall a, n0 <= a -> R a.
Variable n : nat.
Variable rec : addr -> addr -> M addr.
Hypothesis Hrec : forall a b, R a -> R b -> stays R n0 (rec a b) R.

Lemma inv_upd_obj t f s u s' y : ~ R t -> inv R n0 s -> has_shape s t (SObject y) -> upd_obj t f s = (Ok u, s') ->
  inv R n0 s' /\ has_shape s' t (SObject (f y)) /\ forall a, a <> t -> nth_error (heap s') a = nth_error (heap s) a.
Proof.
  intros N I Ht H. pose proof (upd_obj_run _ _ _ _ _ _ Ht H) as T. destruct Ht as (b & G & Sh).
  unfold upd_obj in H. rewrite (bind_ok _ _ _ _ _ (rd_some _ _ _ _ G)), Sh in H.
  split; [|split; auto].
  - pose proof (inv_write R n0 t (CBase (set_shape (Some (SObject (f y))) b)) s N I) as W. unfold after in W. now rewrite H in W.
  - injection H as <- <-. intros a Na. simpl. apply nth_error_upd_neq. congruence.
Qed.
Lemma inv_upd_arr t f s u s' y : ~ R t -> inv R n0 s -> has_shape s t (SArray y) -> upd_arr t f s = (Ok u, s') ->
  inv R n0 s' /\ has_shape s' t (SArray (f y)).
Proof.
  intros N I Ht H. pose proof (upd_arr_run _ _ _ _ _ _ Ht H) as T. destruct Ht as (b & G & Sh).
  unfold upd_arr in H. rewrite (bind_ok _ _ _ _ _ (rd_some _ _ _ _ G)), Sh in H.
  split; auto.
  pose proof (inv_write R n0 t (CBase (set_shape (Some (SArray (f y))) b)) s N I) as W. unfold after in W. now rewrite H in W.
Qed.

Lemma has_shape_nth s s' t sh : nth_error (heap s') t = nth_error (heap s) t -> has_shape s t sh -> has_shape s' t sh.
Proof. intros E (b & G & Sh). exists b. split; auto. apply get_base_nth. rewrite E. now apply get_base_nth. Qed.

(** An array whose items do not contain it stays an array. *)
Lemma array_stays t src tf sf s u s' : ~ R t -> opt_in R (a_items tf) -> opt_in R (a_items sf) -> inv R n0 s ->
  has_shape s t (SArray tf) -> inherit_array rec t src tf sf s = (Ok u, s') -> exists f', has_shape s' t (SArray f').
Proof.
  intros Nt It Is I Ht H. unfold inherit_array in H.
  apply bind_inv in H. destruct H as ([] & s1 & H1 & H).
  assert (A : exists f, has_shape s1 t (SArray f)).
  { destruct (a_items tf) as [ti|] eqn:Qt; [destruct (a_items sf) as [si|] eqn:Qs|].
    - apply bind_inv in H1. destruct H1 as (r & s2 & H1 & H2). injection H2 as <-.
      destruct (stays_run R n0 _ _ _ _ _ (Hrec _ _ (It _ eq_refl) (Is _ eq_refl)) I H1) as (I1 & U1 & _).
      exists tf. eapply has_shape_nth; [|exact Ht]. auto.
    - injection H1 as <-. eauto.
    - apply (inv_upd_arr _ _ _ _ _ _ Nt I Ht) in H1. destruct H1; eauto. }
  destruct A as (f & T1).
  apply bind_inv in H. destruct H as (tf' & s2 & H2 & H). apply cur_arr_run in H2. destruct H2 as (-> & _).
  apply bind_inv in H. destruct H as (sf' & s3 & H3 & H). apply cur_arr_run in H3. destruct H3 as (-> & _).
  apply bind_inv in H. destruct H as (mn & s4 & H4 & H). apply lift_run in H4. destruct H4 as [-> _].
  apply bind_inv in H. destruct H as (mx & s5 & H5 & H). apply lift_run in H5. destruct H5 as [-> _].
  apply bind_inv in H. destruct H as (un & s6 & H6 & H). apply lift_run in H6. destruct H6 as [-> _].
  eapply upd_arr_run in H; eauto.
Qed.

(** An object whose parts do not contain it stays an object. *)
Lemma object_stays t src tf sf s u s' : ~ R t -> (R src \/ ~ R src) -> shape_in R (SObject tf) -> shape_in R (SObject sf) -> inv R n0 s ->
  has_shape s t (SObject tf) -> has_shape s src (SObject sf) ->
  inherit_object n rec t src tf sf s = (Ok u, s') -> exists f', has_shape s' t (SObject f').
Proof.
  intros Nt DS (A1 & A2) (B1 & B2) I Ht Hs H. unfold inherit_object in H.
  apply bind_inv in H. destruct H as (mn & s4 & H4 & H). apply lift_run in H4. destruct H4 as [-> _].
  apply bind_inv in H. destruct H as (mx & s5 & H5 & H). apply lift_run in H5. destruct H5 as [-> _].
  apply bind_inv in H. destruct H as ([] & s1 & H1 & H).
  destruct (inv_upd_obj _ _ _ _ _ _ Nt I Ht H1) as (I1 & T1 & U1).
  match type of T1 with has_shape _ _ (SObject ?x) => set (f1 := x) in T1 end.
  assert (Q1 : o_pprops f1 = o_pprops tf) by reflexivity.
  assert (Q1' : o_props f1 = o_props tf) by reflexivity. clearbody f1.
  apply bind_inv in H. destruct H as ([] & s2 & H2 & H).
  assert (PH : inv R n0 s2 /\ (exists f2, has_shape s2 t (SObject f2) /\ o_pprops f2 = o_pprops f1)
    /\ forall a, ~ R a -> a <> t -> nth_error (heap s2) a = nth_error (heap s1) a).
  { unfold inherit_props in H2. destruct (o_props tf) as [tm|] eqn:Qt; [destruct (o_props sf) as [sm|] eqn:Qs|].
    - assert (ST : stays R n0 (inherit_map n rec tm sm) (fun _ => True)) by (apply stays_inherit_map; auto).
      destruct (stays_run R n0 _ _ _ _ _ ST I1 H2) as (I2 & U2 & _). split; auto. split; auto.
      exists f1. split; auto. eapply has_shape_nth; [|exact T1]. auto.
    - injection H2 as <-. eauto.
    - destruct (inv_upd_obj _ _ _ _ _ _ Nt I1 T1 H2) as (I2 & T2 & U2). split; auto. split; [|auto].
      eexists. split; [exact T2|reflexivity]. }
  destruct PH as (I2 & (f2 & T2 & Q2) & U2).
  apply bind_inv in H. destruct H as (tf' & s3 & H3 & H). apply cur_obj_run in H3. destruct H3 as (-> & b3 & G3 & C3).
  apply bind_inv in H. destruct H as (sf' & s6 & H6 & H). apply cur_obj_run in H6. destruct H6 as (-> & b6 & G6 & C6).
  assert (tf' = f2).
  { destruct T2 as (b & G & Sh). assert (b = b3) by congruence. subst b3. destruct C3 as [(y & Y & ->)|[N _]]; [congruence|].
    destruct (N f2 Sh). }
  subst tf'.
  assert (SP : opt_in R (o_pprops sf')).
  { destruct C6 as [(y & Y & ->)|[_ ->]]; auto. destruct DS as [Rs|Ns].
    - apply get_base_nth in G6. destruct I2 as [_ C2]. destruct (C2 _ _ Rs G6) as (_&_&_&_&_&B). exact (proj2 (B _ Y)).
    - destruct (Nat.eq_dec src t) as [->|Dst].
      + assert (y = f2) by (destruct T2 as (b & G & Sh); congruence). subst y. now rewrite Q2, Q1.
      + assert (has_shape s2 src (SObject sf)).
        { eapply has_shape_nth; [|exact Hs]. rewrite U2, U1 by auto. reflexivity. }
        destruct H0 as (b & G & Sh). assert (y = sf) by congruence. now subst y. }
  unfold inherit_pprops in H. rewrite Q2, Q1 in H. destruct (o_pprops tf) as [pm|] eqn:Qp; [destruct (o_pprops sf') as [sp|]|].
  - assert (ST : stays R n0 (inherit_map n rec pm sp) (fun _ => True)) by (apply stays_inherit_map; auto).
    destruct (stays_run R n0 _ _ _ _ _ ST I2 H) as (I3 & U3 & _).
    exists f2. eapply has_shape_nth; [|exact T2]. auto.
  - injection H as <- <-. eauto.
  - destruct (inv_upd_obj _ _ _ _ _ _ Nt I2 T2 H) as (I3 & T3 & U3). eauto.
Qed.

(** The parts of an object that takes part in a derivation. *)
Definition apart (s : st) (t : addr) (f : obj_facets) : Prop :=
  (forall m l, o_props f = Some m -> get_props (heap s) m = Some l -> props_in R l) /\ opt_in R (o_pprops f)
  /\ (forall m, o_props f = Some m -> ~ R m).

Lemma object_order t src tf sf s u s' tm sm l ks : ~ R t -> (R src \/ ~ R src) -> inv R n0 s ->
  has_shape s t (SObject tf) -> has_shape s src (SObject sf) ->
  o_props tf = Some tm -> o_props sf = Some sm -> get_props (heap s) tm = Some l -> get_props (heap s) sm = Some ks ->
  apart s t tf -> apart s src sf -> tm <> sm -> NoDup (map fst ks) ->
  inherit_object n rec t src tf sf s = (Ok u, s') ->
  get_props (heap s') tm = Some (l ++ missing l ks) /\ exists f', has_shape s' t (SObject f') /\ o_props f' = Some tm.
Proof.
  intros Nt DS I Ht Hs Qt Qs Gt Gs (P1 & P2 & P3) (S1 & S2 & S3) D ND H.
  specialize (P1 _ _ Qt Gt). specialize (P3 _ Qt). specialize (S1 _ _ Qs Gs). specialize (S3 _ Qs).
  unfold inherit_object in H.
  apply bind_inv in H. destruct H as (mn & s4 & H4 & H). apply lift_run in H4. destruct H4 as [-> _].
  apply bind_inv in H. destruct H as (mx & s5 & H5 & H). apply lift_run in H5. destruct H5 as [-> _].
  apply bind_inv in H. destruct H as ([] & s1 & H1 & H).
  destruct (inv_upd_obj _ _ _ _ _ _ Nt I Ht H1) as (I1 & T1 & U1).
  match type of T1 with has_shape _ _ (SObject ?x) => set (f1 := x) in T1 end.
  assert (Q1 : o_pprops f1 = o_pprops tf) by reflexivity.
  assert (Q1' : o_props f1 = Some tm) by exact Qt. clearbody f1.
  assert (Dt : tm <> t). { intros ->. destruct Ht as (b & G & _). apply get_base_nth in G. apply get_props_nth in Gt. congruence. }
  assert (Ds : sm <> t). { intros ->. destruct Ht as (b & G & _). apply get_base_nth in G. apply get_props_nth in Gs. congruence. }
  assert (Gt1 : get_props (heap s1) tm = Some l) by (apply get_props_nth; rewrite U1 by auto; now apply get_props_nth).
  assert (Gs1 : get_props (heap s1) sm = Some ks) by (apply get_props_nth; rewrite U1 by auto; now apply get_props_nth).
  apply bind_inv in H. destruct H as ([] & s2 & H2 & H).
  rewrite Qt, Qs in H2. simpl in H2. unfold inherit_map in H2.
  destruct (map_order R n0 rec Hrec tm sm ks l P3 S3 D ND P1 S1 n 0 s1 tt s2 (Nat.le_0_l _) I1 Gs1) as (I2 & U2 & G2);
    [simpl; rewrite app_nil_r; exact Gt1|exact H2|].
  assert (T2 : has_shape s2 t (SObject f1)) by (eapply has_shape_nth; [apply U2; auto|exact T1]).
  apply bind_inv in H. destruct H as (tf' & s3 & H3 & H). apply cur_obj_run in H3. destruct H3 as (-> & b3 & G3 & C3).
  apply bind_inv in H. destruct H as (sf' & s6 & H6 & H). apply cur_obj_run in H6. destruct H6 as (-> & b6 & G6 & C6).
  assert (tf' = f1).
  { destruct T2 as (b & G & Sh). assert (b = b3) by congruence. subst b3. destruct C3 as [(y & Y & ->)|[N _]]; [congruence|].
    destruct (N f1 Sh). }
  subst tf'.
  assert (SP : opt_in R (o_pprops sf')).
  { destruct C6 as [(y & Y & ->)|[_ ->]]; auto. destruct DS as [Rs|Ns].
    - apply get_base_nth in G6. destruct I2 as [_ C2]. destruct (C2 _ _ Rs G6) as (_&_&_&_&_&B). exact (proj2 (B _ Y)).
    - assert (Dm : src <> tm). { intros ->. destruct Hs as (b & G & _). apply get_base_nth in G. apply get_props_nth in Gt. congruence. }
      destruct (Nat.eq_dec src t) as [->|Dst].
      + assert (y = f1) by (destruct T2 as (b & G & Sh); congruence). subst y. now rewrite Q1.
      + assert (has_shape s2 src (SObject sf)).
        { eapply has_shape_nth; [|exact Hs]. rewrite U2, U1 by auto. reflexivity. }
        destruct H0 as (b & G & Sh). assert (y = sf) by congruence. now subst y. }
  unfold inherit_pprops in H. rewrite Q1 in H. destruct (o_pprops tf) as [pm|] eqn:Qp; [destruct (o_pprops sf') as [sp|]|].
  - assert (ST : stays R n0 (inherit_map n rec pm sp) (fun _ => True)).
    { apply stays_inherit_map; auto. }
    destruct (stays_run R n0 _ _ _ _ _ ST I2 H) as (I3 & U3 & _). split.
    + apply get_props_nth. rewrite U3 by auto. now apply get_props_nth.
    + exists f1. split; auto. eapply has_shape_nth; [|exact T2]. auto.
  - injection H as <- <-. split; auto. exists f1; auto.
  - destruct (inv_upd_obj _ _ _ _ _ _ Nt I2 T2 H) as (I3 & T3 & U3). split.
    + apply get_props_nth. rewrite U3 by auto. now apply get_props_nth.
    + eexists. split; [exact T3|]. exact Q1'.
Qed.
End Whole.

Lemma inherit_array_stays (R : addr -> Prop) n t src s r s' f g : (forall a, List.length (heap s) <= a -> R a) -> closed R (heap s) ->
  ~ R t -> shape_in R (SArray f) -> shape_in R (SArray g) ->
  inherit n t src s = (Ok r, s') -> has_shape s t (SArray f) -> has_shape s src (SArray g) ->
  (forall b, get_base (heap s) src = Some b -> b_visited b = false) -> exists f', has_shape s' t (SArray f').
Proof.
  intros New C Nt F G H Ht Hs V. destruct (inherit_enter _ _ _ _ _ _ _ _ H Ht Hs V I) as (m & s1 & s2 & -> & S1 & Run & S2 & ->).
  destruct S1 as (K1 & A1 & B1 & C1 & D1). simpl in Run.
  assert (I1 : inv R (List.length (heap s)) s1) by (split; [lia|auto]).
  destruct (array_stays R (List.length (heap s)) (inherit m)
    (stays_inherit R _ New m) _ _ _ _ _ _ _ Nt F G I1 (A1 _ _ Ht) Run) as (f' & T).
  exists f'. now apply S2.
Qed.

Lemma inherit_object_order (R : addr -> Prop) n t src s r s' f g tm sm l ks : (forall a, List.length (heap s) <= a -> R a) -> closed R (heap s) ->
  ~ R t -> (R src \/ ~ R src) ->
  inherit n t src s = (Ok r, s') -> has_shape s t (SObject f) -> has_shape s src (SObject g) ->
  (forall b, get_base (heap s) src = Some b -> b_visited b = false) ->
  o_props f = Some tm -> o_props g = Some sm -> get_props (heap s) tm = Some l -> get_props (heap s) sm = Some ks ->
  props_in R l -> props_in R ks -> ~ R tm -> ~ R sm -> opt_in R (o_pprops f) -> opt_in R (o_pprops g) ->
  tm <> sm -> NoDup (map fst ks) ->
  get_props (heap s') tm = Some (l ++ missing l ks) /\ exists f', has_shape s' t (SObject f') /\ o_props f' = Some tm.
Proof.
  intros New C Nt DS H Ht Hs V Qt Qs Gt Gs Pl Pk Nm Nsm Ot Os D ND.
  destruct (inherit_enter _ _ _ _ _ _ _ _ H Ht Hs V I) as (m & s1 & s2 & -> & S1 & Run & S2 & ->).
  destruct S1 as (K1 & A1 & B1 & C1 & D1). simpl in Run.
  assert (I1 : inv R (List.length (heap s)) s1) by (split; [lia|auto]).
  assert (AT : apart R s1 t f).
  { split; [|split; auto; congruence]. intros x y X Y. assert (x = tm) by congruence. subst x.
    assert (y = l) by (rewrite (B1 _ _ Gt) in Y; congruence). now subst y. }
  assert (AS : apart R s1 src g).
  { split; [|split; auto; congruence]. intros x y X Y. assert (x = sm) by congruence. subst x.
    assert (y = ks) by (rewrite (B1 _ _ Gs) in Y; congruence). now subst y. }
  destruct (object_order R (List.length (heap s)) m (inherit m)
    (stays_inherit R _ New m) _ _ _ _ _ _ _ _ _ _ _ Nt DS I1 (A1 _ _ Ht) (A1 _ _ Hs) Qt Qs (B1 _ _ Gt) (B1 _ _ Gs) AT AS D ND Run)
    as (G' & f' & T & Q).
  destruct S2 as (K2 & A2 & B2 & C2 & D2). split; auto. exists f'. auto.
Qed.

Lemma inherit_object_stays (R : addr -> Prop) n t src s r s' f g : (forall a, List.length (heap s) <= a -> R a) -> closed R (heap s) ->
  ~ R t -> (R src \/ ~ R src) -> shape_in R (SObject f) -> shape_in R (SObject g) ->
  inherit n t src s = (Ok r, s') -> has_shape s t (SObject f) -> has_shape s src (SObject g) ->
  (forall b, get_base (heap s) src = Some b -> b_visited b = false) -> exists f', has_shape s' t (SObject f').
Proof.
  intros New C Nt DS F G H Ht Hs V. destruct (inherit_enter _ _ _ _ _ _ _ _ H Ht Hs V I) as (m & s1 & s2 & -> & S1 & Run & S2 & ->).
  destruct S1 as (K1 & A1 & B1 & C1 & D1). simpl in Run.
  assert (I1 : inv R (List.length (heap s)) s1) by (split; [lia|auto]).
  destruct (object_stays R (List.length (heap s)) m (inherit m)
    (stays_inherit R _ New m) _ _ _ _ _ _ _ Nt DS F G I1 (A1 _ _ Ht) (A1 _ _ Hs) Run) as (f' & T).
  exists f'. now apply S2.
Qed.
