(** Every file that is loaded gives a fragment as the file says (C62). *)
From Coq Require Import ZArith List String Bool Ascii Lia.
From Verif Require Import Base Scalars Heap Rdt Resolve Names Spec_Names Yaml Spec_Yaml Yaml_proofs Pipeline Spec_Resolve Spec_Model
  Decode Parse Spec_Parse Spec_Decode Parse_ends Heap_lemmas Parse_walk Parse_fresh Decode_says Decode_read Decode_made Decode_load.
From Verif Require Pipeline_proofs.
Import ListNotations.
Open Scope string_scope.
Open Scope list_scope.
Open Scope nat_scope.

(** Fragments and libraries that are there stay as they are. *)
Record grown (p p' : pst) : Prop := {
  gr_frags : forall path f, oget path (p_frags p) = Some f -> oget path (p_frags p') = Some f;
  gr_libs : forall l lib, nth_error (p_libs p) l = Some lib -> nth_error (p_libs p') l = Some lib
}.
Lemma grown_refl p : grown p p. Proof. split; auto. Qed.
Lemma grown_trans p1 p2 p3 : grown p1 p2 -> grown p2 p3 -> grown p1 p3.
Proof. intros [A B] [C D]. split; auto. Qed.
Lemma grown_near p p' : near p p' -> grown p p'.
Proof. intros (A & B & _). split; intros; congruence. Qed.
Lemma grown_len p p' : grown p p' -> List.length (p_libs p) <= List.length (p_libs p').
Proof.
  intros [_ G]. destruct (Nat.le_gt_cases (List.length (p_libs p)) (List.length (p_libs p'))) as [|L]; auto.
  destruct (nth_error (p_libs p) (List.length (p_libs p'))) as [lib|] eqn:N.
  - apply G in N. apply nth_error_lt in N. lia.
  - apply nth_error_None in N. lia.
Qed.

(** ** The entries of a library *)

Definition decls (k : string) (l : list (string * ynode)) : list (string * ynode) :=
  match last_of k (filter (fun kv => negb (String.eqb (y_tag (snd kv)) "!!null")) l) with
  | Some n => pairs (y_content n)
  | None => []
  end.
Lemma decls_in k doc : declarations_in k doc = decls k (entries doc). Proof. reflexivity. Qed.
Lemma decls_skip k l k' v : k <> k' \/ y_tag v = "!!null" -> decls k (l ++ [(k', v)]) = decls k l.
Proof.
  intros H. unfold decls. rewrite filter_app. cbn. destruct (String.eqb_spec (y_tag v) "!!null"); cbn; [now rewrite app_nil_r|].
  rewrite last_of_snoc. destruct (String.eqb_spec k k'); auto. destruct H; contradiction.
Qed.
Lemma decls_take k l v : y_tag v <> "!!null" -> decls k (l ++ [(k, v)]) = pairs (y_content v).
Proof.
  intros H. unfold decls. rewrite filter_app. cbn. destruct (String.eqb_spec (y_tag v) "!!null"); cbn; [contradiction|].
  rewrite last_of_snoc. now rewrite String.eqb_refl.
Qed.

Section Files.
Variable E : denv.
Variables text0 path0 : string.
Variable X : string -> Prop.
Notation loads := (loads E text0 path0 X).
Notation filed := (filed E text0 path0 X).
Notation source := (source E text0 path0).

Lemma loads_refl p : loads p p.
Proof. apply loads_near; [apply app_refl|reflexivity|apply same_libs_refl]. Qed.

(** The outcome of loading. *)
Record adds (p p' : pst) : Prop := { ad_app : app p p'; ad_loads : loads p p'; ad_grown : grown p p' }.
Lemma adds_refl p : adds p p. Proof. split; [apply app_refl|apply loads_refl|apply grown_refl]. Qed.
Lemma adds_trans p1 p2 p3 : adds p1 p2 -> adds p2 p3 -> adds p1 p3.
Proof.
  intros [A1 L1 G1] [A2 L2 G2]. split; [eapply app_trans; eauto| |eapply grown_trans; eauto].
  exact (loads_trans _ _ _ _ _ _ _ (app_len _ _ A1) L1 L2).
Qed.
Lemma adds_still p p' : still p p' -> near p p' -> adds p p'.
Proof.
  intros S N. split; [now apply still_app| |now apply grown_near].
  apply loads_near; [now apply still_app|now destruct N as (_ & ? & _)|now apply near_libs].
Qed.
Lemma adds_run {A} (m : D A) p r p' : stills m -> along near m -> m p = (Ok r, p') -> adds p p'.
Proof. intros S N H. apply adds_still; [exact (S _ _ _ H)|exact (N _ _ _ H)]. Qed.

Lemma span_carry n p p' : n <= len p -> app p p' -> carries (st E (span n (len p)) p) (st E (span n (len p')) p') p p'.
Proof.
  intros L A. apply st_carry.
  - apply app_inside; auto. unfold span. intros. lia.
  - unfold span. pose proof (app_len _ _ A). intros. lia.
Qed.

Lemma st_located F p v name path x : st E F p v name path x -> exists b, get_base (H_ p) x = Some b /\ b_loc b = path.
Proof. intros (R & Rx & Hr). destruct (Hr _ _ _ _ Rx) as (b & G & D & _). exists b. split; auto. apply D. Qed.

Section Fragments.
Variable inc_dt : string -> D addr.
Variable inc_ne : string -> D unit.
Variable inc_lib : string -> D nat.
Hypothesis Idt : forall path p u p', inc_dt path p = (Ok u, p') -> adds p p' /\ from p' path u.
Hypothesis Ine : forall path p u p', inc_ne path p = (Ok u, p') -> adds p p'.
Hypothesis Ilib : forall path p u p', inc_lib path p = (Ok u, p') -> adds p p'.

Lemma calm_all loc v : calm grown E inc_dt inc_ne loc v.
Proof. intros t _ _ _. split; intros p r p' H; [apply Idt in H|apply Ine in H]; apply H. Qed.

Lemma shape_adds v name loc p x p' : shape_yaml E inc_dt inc_ne v name loc p = (Ok x, p') ->
  adds p p' /\ st E (span (len p) (len p')) p' v name loc x.
Proof.
  intros H.
  assert (G : grown p p') by exact (al_shape_yaml grown (close_near grown grown_near) grown_trans E inc_dt inc_ne loc v name (calm_all loc v) p x p' H).
  unfold shape_yaml in H.
  assert (A1 : forall path q u q', inc_dt path q = (Ok u, q') -> app q q' /\ loads q q' /\ from q' path u) by (intros ? ? ? ? HH; apply Idt in HH; split; [|split]; apply HH).
  assert (A2 : forall path q u q', inc_ne path q = (Ok u, q') -> app q q' /\ loads q q') by (intros ? ? ? ? HH; apply Ine in HH; split; apply HH).
  destruct (shape_at_loads E text0 path0 X inc_dt inc_ne A1 A2 _ _ _ _ _ _ _ H) as [A L]. split; [split; auto|].
  refine (proj2 (shape_at_read E inc_dt inc_ne _ _ _ _ _ _ _ _ _ H)); intros ? ? ? ? HH; [apply A1 in HH|apply A2 in HH]; tauto.
Qed.

Definition told (n : nat) (p : pst) (loc : string) (l : list (string * ynode)) (m : omap addr) : Prop :=
  filled (fun key nd name x => name = key /\ st E (span n (len p)) p nd key loc x) l m.
Lemma told_app n p p' loc l m : n <= len p -> app p p' -> told n p loc l m -> told n p' loc l m.
Proof.
  intros L A. apply filled_weak. intros k nd nm x [Q S]. split; auto. now apply (span_carry n p p').
Qed.

Lemma declarations_read loc put n : (forall nm a, stills (put nm loc a)) -> (forall nm a, along near (put nm loc a)) ->
  forall l done m p m' p', n <= len p -> told n p loc done m -> declarations E inc_dt inc_ne loc put l m p = (Ok m', p') ->
  adds p p' /\ told n p' loc (done ++ pairs l) m'.
Proof.
  intros Sp Ap. induction l as [| |k v l IH] using pair_induction; intros done m p m' p' L T H; cbn [declarations] in H.
  - apply dret_inv in H. destruct H as [-> ->]. split; [apply adds_refl|]. cbn. now rewrite app_nil_r.
  - discriminate.
  - apply dbind_inv in H. destruct H as (x & p1 & H1 & H). destruct (shape_adds _ _ _ _ _ _ H1) as [A1 S1].
    apply dbind_inv in H. destruct H as (u & p2 & H2 & H). pose proof (adds_run _ _ _ _ (Sp _ _) (Ap _ _) H2) as A2.
    pose proof (app_len _ _ (ad_app _ _ A1)) as L1. pose proof (app_len _ _ (ad_app _ _ A2)) as L2.
    destruct (IH (done ++ [(y_value k, v)]) (oset (y_value k) x m) p2 m' p') as [A3 T3]; auto; [lia| |].
    + constructor.
      * apply (told_app n p p2); auto. eapply app_trans; [apply A1|apply A2].
      * split; auto. apply (span_carry n p1 p2); [lia|apply A2|]. eapply st_wide; [|exact S1]. unfold span. intros. lia.
    + split; [eapply adds_trans; [exact A1|]; eapply adds_trans; eauto|]. cbn [pairs]. now rewrite <- app_assoc in T3.
Qed.

Lemma declare_read loc put n k done v old p m p' : (forall nm a, stills (put nm loc a)) -> (forall nm a, along near (put nm loc a)) ->
  n <= len p -> told n p loc (decls k done) old -> declare E inc_dt inc_ne loc put v old p = (Ok m, p') ->
  adds p p' /\ told n p' loc (decls k (done ++ [(k, v)])) m.
Proof.
  intros Sp Ap L T H. unfold declare in H. destruct (String.eqb_spec (y_tag v) "!!null") as [Q|Nq].
  - apply dret_inv in H. destruct H as [-> ->]. rewrite decls_skip by auto. split; auto. apply adds_refl.
  - destruct (y_kind v); try discriminate. rewrite decls_take by auto.
    apply (declarations_read loc put n Sp Ap _ [] [] p m p'); auto. constructor.
Qed.

Record libd (n : nat) (p : pst) (loc : string) (done : list (string * ynode)) (b : plib) : Prop := {
  ld_types : told n p loc (decls "types" done) (pl_types b);
  ld_annots : told n p loc (decls "annotationTypes" done) (pl_annots b)
}.
Lemma lib_entries_read loc n : forall l done b p b' p', n <= len p -> libd n p loc done b ->
  lib_entries E inc_dt inc_ne loc l b p = (Ok b', p') -> adds p p' /\ libd n p' loc (done ++ pairs l) b'.
Proof.
  induction l as [| |k v l IH] using pair_induction; intros done b p b' p' L [T A] H; cbn [lib_entries] in H.
  - apply dret_inv in H. destruct H as [-> ->]. split; [apply adds_refl|]. cbn. rewrite app_nil_r. now split.
  - discriminate.
  - cbn [pairs]. replace (done ++ (y_value k, v) :: pairs l) with ((done ++ [(y_value k, v)]) ++ pairs l) by (now rewrite <- app_assoc).
    assert (Go : forall b1 p1, adds p p1 -> libd n p1 loc (done ++ [(y_value k, v)]) b1 ->
       lib_entries E inc_dt inc_ne loc l b1 p1 = (Ok b', p') -> adds p p' /\ libd n p' loc ((done ++ [(y_value k, v)]) ++ pairs l) b').
    { intros b1 p1 A1 I1 H1. pose proof (app_len _ _ (ad_app _ _ A1)). destruct (IH (done ++ [(y_value k, v)]) b1 p1 b' p') as [A2 I2]; auto; [lia|].
      split; auto. eapply adds_trans; eauto. }
    assert (Old : forall p1, adds p p1 -> y_value k <> "types" -> y_value k <> "annotationTypes" -> forall us,
       libd n p1 loc (done ++ [(y_value k, v)]) (PLib us (pl_types b) (pl_annots b))).
    { intros p1 A1 N1 N2 us. split; cbn [pl_types pl_annots]; rewrite decls_skip by auto; (apply (told_app n p p1); [lia|apply A1|auto]). }
    assert (Same : libd n p loc (done ++ [(y_value k, v)]) (PLib (pl_uses b) (pl_types b) (pl_annots b)) -> libd n p loc (done ++ [(y_value k, v)]) b) by (intros [? ?]; split; auto).
    destruct (String.eqb_spec (y_value k) "uses") as [Q|N1].
    { apply dbind_inv in H. destruct H as (us & p1 & H1 & H). apply dlift_inv in H1. destruct H1 as [_ ->].
      apply (Go (PLib us (pl_types b) (pl_annots b)) p); auto using adds_refl. apply Old; auto using adds_refl; rewrite Q; discriminate. }
    destruct (String.eqb_spec (y_value k) "types") as [Q|N2].
    { rewrite Q in *. apply dbind_inv in H. destruct H as (m & p1 & H1 & H).
      destruct (declare_read loc put_type n "types" done v _ _ _ _ (fun a b => stills_type _ _ _) (fun a b => near_type _ _ _) L T H1) as [A1 T1].
      refine (Go _ p1 A1 _ H). split; cbn; auto. rewrite decls_skip by (left; discriminate). apply (told_app n p p1); auto. apply A1. }
    destruct (String.eqb_spec (y_value k) "annotationTypes") as [Q|N3].
    { rewrite Q in *. apply dbind_inv in H. destruct H as (m & p1 & H1 & H).
      destruct (declare_read loc put_annot n "annotationTypes" done v _ _ _ _ (fun a b => stills_annot _ _ _) (fun a b => near_annot _ _ _) L A H1) as [A1 T1].
      refine (Go _ p1 A1 _ H). split; cbn; auto. rewrite decls_skip by (left; discriminate). apply (told_app n p p1); auto. apply A1. }
    destruct (String.eqb_spec (y_value k) "usage") as [Q|N4].
    { apply dbind_inv in H. destruct H as (u & p1 & H1 & H). apply dlift_inv in H1. destruct H1 as [_ ->].
      apply (Go b p); auto using adds_refl. }
    destruct (is_annotation _).
    + apply dbind_inv in H. destruct H as (u & p1 & H1 & H).
      pose proof (adds_run _ _ _ _ (stills_make_ext _ _ _ _) (al_make_ext near along_near_id near_trans _ _ _ _) H1) as A1.
      apply (Go b p1); auto. destruct (Old p1 A1 N2 N3 (pl_uses b)). split; auto.
    + apply (Go b p); auto using adds_refl.
Qed.

Lemma unmarshal_lib_read loc v p b p' : unmarshal_lib E inc_dt inc_ne loc v p = (Ok b, p') -> adds p p' /\ libd (len p) p' loc (entries v) b.
Proof.
  unfold unmarshal_lib, entries. destruct (y_kind v); try discriminate. intros H.
  apply (lib_entries_read loc (len p) (y_content v) [] (PLib [] [] []) p b p'); auto. split; constructor.
Qed.

(** ** Steps on fragments *)

Lemma oget_found {A} k (m : omap A) x : oget k m = Some x -> In (k, x) m.
Proof. induction m as [|[k' x'] m IH]; cbn; [discriminate|]. destruct (String.eqb_spec k k') as [->|]; [intros Q; injection Q as ->|]; auto. Qed.

Lemma new_lib_adds lib p l p' : new_lib lib p = (Ok l, p') -> adds p p' /\ nth_error (p_libs p') l = Some lib /\ l = List.length (p_libs p)
  /\ app p' p' /\ p_frags p' = p_frags p /\ still p p'.
Proof.
  intros H. unfold new_lib in H. injection H as <- <-. set (p' := PSt _ _ _ _ _ _ _ _ _).
  assert (S : still p p'). { apply still_easy; auto. exists []. cbn. now rewrite app_nil_r. }
  assert (N : forall l lib0, nth_error (p_libs p) l = Some lib0 -> nth_error (p_libs p') l = Some lib0).
  { intros l lib0 N. cbn. rewrite nth_error_app1; auto. eapply nth_error_lt; eauto. }
  split; [|split; [cbn; apply nth_error_snoc|split; [auto|split; [apply app_refl|split; auto]]]].
  split; [now apply still_app| |split; auto].
  apply loads_near; [now apply still_app|reflexivity|]. intros l0 lib0 N0. exists lib0. auto.
Qed.

Lemma put_fragment_step path f dt p u p' : put_fragment path f dt p = (Ok u, p') -> (forall x, dt = Some x -> located p x path) ->
  still p p' /\ p_libs p' = p_libs p /\ grown p p' /\
  (forall q g, oget q (p_frags p') = Some g -> oget q (p_frags p) = Some g \/ (oget q (p_frags p) = None /\ q = path /\ g = f)).
Proof.
  unfold put_fragment. destruct (oget path (p_frags p)) eqn:O; intros H Lo; injection H as _ <-.
  - split; [apply still_refl|]. split; auto. split; [apply grown_refl|auto].
  - split; [split; auto; cbn|]; [exists []; now rewrite app_nil_r| | |].
    { destruct dt; [|apply incl_refl]. apply incl_appl, incl_refl. }
    { destruct dt as [x|]; auto. intros q l I. apply in_app_or in I. destruct I as [|[I|[]]]; auto. injection I as <- <-. right. apply (Lo x eq_refl). }
    split; auto. split; [split; cbn; auto|].
    + intros q g Og. rewrite oget_snoc, Og. reflexivity.
    + cbn. intros q g. rewrite oget_snoc. destruct (oget q (p_frags p)) eqn:Oq; auto. destruct (String.eqb_spec q path) as [->|]; [|discriminate].
      intros Qg. injection Qg as <-. auto.
Qed.

(** A fragment that says what its file says. *)
Lemma put_loads path f dt text p u p' Z : source path text -> put_fragment path f dt p = (Ok u, p') -> (forall x, dt = Some x -> located p x path) ->
  filed Z p -> frag_said E Z p path text f -> filed Z p'.
Proof.
  intros So H Lo [L S] Fs. destruct (put_fragment_step _ _ _ _ _ _ H Lo) as (St & Ql & _ & Pf). pose proof (still_app _ _ St) as A. split.
  - intros z Hz. specialize (L z Hz). pose proof (app_len _ _ A). lia.
  - assert (C : carries (st E Z p) (st E Z p') p p') by (apply st_carry; auto; apply app_inside; auto).
    assert (Li : same_libs p p') by (intros l lib N; exists lib; rewrite Ql; auto).
    intros q g O. destruct (Pf q g O) as [O'|(_ & -> & ->)].
    + destruct (S _ _ O') as [?|(t & St' & Ft)]; auto. right. exists t. split; auto. eapply frag_said_move; eauto.
    + right. exists text. split; auto. eapply frag_said_move; eauto.
Qed.

Lemma link_lib_step l name x p u p' : link_lib l name x p = (Ok u, p') ->
  app p p' /\ loads p p' /\ p_frags p' = p_frags p /\ (forall i, i <> l -> nth_error (p_libs p') i = nth_error (p_libs p) i).
Proof.
  unfold link_lib. destruct (nth_error (p_libs p) l) as [lib|] eqn:N; [|discriminate]. intros H. injection H as _ <-. set (p' := PSt _ _ _ _ _ _ _ _ _).
  assert (S : still p p'). { apply still_easy; auto. exists []. cbn. now rewrite app_nil_r. }
  split; [now apply still_app|]. split; [|split; [reflexivity|]].
  - apply loads_near; [now apply still_app|reflexivity|]. intros i lib0 N0. cbn. destruct (Nat.eq_dec i l) as [->|D].
    + rewrite N in N0. injection N0 as <-. rewrite (nth_error_upd_eq _ _ _ _ N). eexists. split; eauto.
    + rewrite nth_error_upd_neq by auto. eauto.
  - intros i D. cbn. now rewrite nth_error_upd_neq by auto.
Qed.

Lemma link_uses_adds path l m : forall p0 p p', grown p0 p -> List.length (p_libs p0) <= l -> link_uses E inc_lib path l m p = (Ok true, p') ->
  app p p' /\ loads p p' /\ grown p0 p'.
Proof.
  induction m as [|[name value] m IH]; intros p0 p p' G L H; cbn [link_uses] in H.
  - apply dret_inv in H. destruct H as [_ ->]. split; [apply app_refl|]. split; [apply loads_refl|auto].
  - apply dbind_inv in H. destruct H as (r & p1 & H1 & H). unfold dtry in H1.
    apply dbind_inv in H. destruct H as (u & p2 & H2 & H). destruct (link_lib_step _ _ _ _ _ _ H2) as (A2 & L2 & F2 & N2).
    apply dbind_inv in H. destruct H as (ok & p3 & H3 & H). apply dret_inv in H. destruct H as [Qr ->].
    destruct r as [x|]; [|discriminate]. subst ok. destruct (inc_lib _ p) as [[y| | |] q] eqn:Il; try discriminate. injection H1 as -> ->.
    apply Ilib in Il. destruct Il as [A1 L1 G1]. destruct (IH p0 p2 p3) as (A3 & L3 & G3); auto.
    { destruct (grown_trans _ _ _ G G1) as [Fr Lb]. split; [now rewrite F2|]. intros i lib N. rewrite N2; auto. apply nth_error_lt in N. lia. }
    split; [eapply app_trans; [exact A1|]; eapply app_trans; eauto|]. split; auto.
    refine (loads_trans _ _ _ _ _ _ _ (app_len _ _ A1) L1 _). exact (loads_trans _ _ _ _ _ _ _ (app_len _ _ A2) L2 L3).
Qed.

Lemma link_dt_step path name x p u p' : link_dt path true name x p = (Ok u, p') ->
  app p p' /\ loads p p' /\ p_libs p' = p_libs p /\ (forall q, q <> path -> oget q (p_frags p') = oget q (p_frags p)).
Proof.
  unfold link_dt. destruct (oget path (p_frags p)) as [[|us sh|]|] eqn:O; intros H; injection H as _ Q;
    try (subst p'; split; [apply app_refl|]; split; [apply loads_refl|]; split; auto; fail).
  rewrite <- Q. clear Q p'. set (p' := PSt _ _ _ _ _ _ _ _ _).
  assert (S : still p p'). { apply still_easy; auto. exists []. cbn. now rewrite app_nil_r. }
  split; [now apply still_app|]. split; [|split; [reflexivity|]].
  - intros Z [L Sa]. exists Z. split; [|apply wider_refl]. split; [exact L|].
    assert (C : carries (st E Z p) (st E Z p') p p') by (apply st_carry; auto; apply app_inside; auto; now apply still_app).
    assert (Li : same_libs p p') by (intros i lib Ni; exists lib; auto).
    cbn [p_frags p']. intros q g Og. destruct (String.eqb_spec q path) as [->|D].
    + rewrite Pipeline_proofs.oget_oset_same in Og. injection Og as <-. destruct (Sa _ _ O) as [?|(t & So & Ft)]; auto.
      right. exists t. split; auto. apply (frag_said_move E Z Z p p') in Ft; auto.
    + rewrite Pipeline_proofs.oget_oset_other in Og by auto. destruct (Sa _ _ Og) as [?|(t & So & Ft)]; auto.
      right. exists t. split; auto. apply (frag_said_move E Z Z p p') in Ft; auto.
  - intros q D. cbn. now rewrite Pipeline_proofs.oget_oset_other by auto.
Qed.

Lemma link_dt_adds path mine m : forall p0 p u p', grown p0 p -> (mine = true -> oget path (p_frags p0) = None) ->
  link_dt_uses E inc_lib path mine m p = (Ok u, p') -> app p p' /\ loads p p' /\ grown p0 p'.
Proof.
  induction m as [|[name value] m IH]; intros p0 p u p' G Mi H; cbn [link_dt_uses] in H.
  - apply dret_inv in H. destruct H as [_ ->]. split; [apply app_refl|]. split; [apply loads_refl|auto].
  - apply dbind_inv in H. destruct H as (r & p1 & H1 & H). apply Ilib in H1. destruct H1 as [A1 L1 G1].
    apply dbind_inv in H. destruct H as (u2 & p2 & H2 & H). pose proof (grown_trans _ _ _ G G1) as G01.
    assert (S2 : app p1 p2 /\ loads p1 p2 /\ grown p0 p2).
    { destruct mine.
      - destruct (link_dt_step _ _ _ _ _ _ H2) as (A2 & L2 & Q2 & F2). split; auto. split; auto. destruct G01 as [Fr Lb]. split; [|now rewrite Q2].
        intros q f Of. rewrite F2; auto. intros ->. rewrite Mi in Of by auto. discriminate.
      - unfold link_dt in H2. injection H2 as _ <-. split; [apply app_refl|]. split; [apply loads_refl|auto]. }
    destruct S2 as (A2 & L2 & G2). destruct (IH p0 p2 u p') as (A3 & L3 & G3); auto.
    split; [eapply app_trans; [exact A1|]; eapply app_trans; eauto|]. split; auto.
    refine (loads_trans _ _ _ _ _ _ _ (app_len _ _ A1) L1 _). exact (loads_trans _ _ _ _ _ _ _ (app_len _ _ A2) L2 L3).
Qed.

(** ** Whole files *)

Lemma st_union (Z Z' : addr -> Prop) p v name loc x : st E Z p v name loc x -> st E (fun z => Z z \/ Z' z) p v name loc x.
Proof. apply st_wide. auto. Qed.

Lemma filed_wide (Z Z' : addr -> Prop) p : filed Z p -> (forall z, Z' z -> z < len p) -> filed (fun z => Z z \/ Z' z) p.
Proof.
  intros [L S] L'. split; [intros z [?|?]; auto|]. intros q f O. destruct (S q f O) as [?|(t & So & Fs)]; auto. right. exists t. split; auto.
  eapply frag_said_move; [|apply same_libs_refl|exact Fs]. intros v nm loc x H. split; [now apply st_union|eauto].
Qed.

Lemma decode_lib_adds text path p l p' : source path text -> decode_lib E inc_dt inc_ne inc_lib text path p = (Ok l, p') -> adds p p'.
Proof.
  intros So H. unfold decode_lib in H. apply dbind_inv in H. destruct H as (o & p1 & H1 & H). apply dlift_inv in H1. destruct H1 as [Do ->].
  destruct o as [v|]; [|discriminate]. apply dbind_inv in H. destruct H as (b & p1 & H1 & H). destruct (unmarshal_lib_read _ _ _ _ _ H1) as [A1 [T1 T2]].
  apply dbind_inv in H. destruct H as (l' & p2 & H2 & H). destruct (new_lib_adds _ _ _ _ H2) as (A2 & N2 & Ql & _ & Qf & S2).
  apply dbind_inv in H. destruct H as (u & p3 & H3 & H). assert (Lo : forall x, None = Some x -> located p2 x path) by discriminate. destruct (put_fragment_step _ _ _ _ _ _ H3 Lo) as (S3 & Ql3 & G3 & _).
  apply dbind_inv in H. destruct H as (ok & p4 & H4 & H). destruct ok; [|discriminate]. apply dret_inv in H. destruct H as [-> ->].
  pose proof (app_len _ _ (ad_app _ _ A1)) as L1. pose proof (app_len _ _ (still_app _ _ S2)) as L2. pose proof (app_len _ _ (still_app _ _ S3)) as L3.
  assert (Ll : List.length (p_libs p1) <= l') by lia.
  destruct (link_uses_adds _ _ _ _ _ _ (grown_trans _ _ _ (ad_grown _ _ A2) G3) Ll H4) as (A4 & Lo4 & G4).
  assert (Ap : app p p3) by (eapply app_trans; [apply A1|]; eapply app_trans; [apply A2|now apply still_app]).
  split.
  - eapply app_trans; eauto.
  - refine (loads_trans _ _ _ _ _ _ _ (app_len _ _ Ap) _ Lo4). intros Z F.
    destruct (ad_loads _ _ (adds_trans _ _ _ A1 A2) Z F) as (Z1 & F1 & W1 & W2).
    exists (fun z => Z1 z \/ span (len p) (len p2) z). split.
    + eapply put_loads; [exact So|exact H3|exact Lo| |].
      * apply filed_wide; auto. unfold span. intros. lia.
      * assert (Sd : forall k m, told (len p) p1 path (decls k (entries v)) m -> said E (fun z => Z1 z \/ span (len p) (len p2) z) p2 path k v m).
        { intros k m T. apply (told_app (len p) p1 p2) in T; [|lia|apply A2]. unfold said, said_by. rewrite decls_in. eapply filled_weak; [|exact T].
          intros k0 n0 nm0 x0 [? S]. split; auto. eapply st_wide; [|exact S]. auto. }
        exists v, (Lib (pl_types b) (pl_annots b) (unlinked (pl_uses b))). cbn [l_types l_annots]. split; auto. split; auto. split; now apply Sd.
    + split; auto. intros z [Hz|Hz]; auto. right. apply Hz.
  - eapply grown_trans; [apply A1|exact G4].
Qed.

Lemma dt_entries_split l : forall us rest r, dt_entries l us rest = Ok r -> exists more, snd r = rest ++ more
  /\ pairs more = filter (fun kv => negb (String.eqb (fst kv) "usage" || String.eqb (fst kv) "uses")) (pairs l)
  /\ Nat.even (List.length more) = true.
Proof.
  induction l as [| |k v l IH] using pair_induction; intros us rest r H; cbn [dt_entries] in H.
  - injection H as <-. exists []. cbn. now rewrite app_nil_r.
  - discriminate.
  - cbn [pairs filter fst]. destruct (String.eqb (y_value k) "usage"); cbn [orb negb]; [eauto|].
    destruct (String.eqb (y_value k) "uses"); cbn [orb negb].
    + destruct (String.eqb (y_tag v) "!!null"); [eauto|]. destruct (uses_map _ _); try discriminate. cbn in H. eauto.
    + destruct (IH _ _ _ H) as (more & Q & Pm & Ev). exists (k :: v :: more). split; [now rewrite Q, <- app_assoc|]. split; [cbn; now rewrite Pm|exact Ev].
Qed.

Lemma unmarshal_dt_read loc v p r p' : unmarshal_dt E inc_dt inc_ne loc v p = (Ok r, p') ->
  adds p p' /\ exists w, y_kind w = KMap /\ entries w = type_entries v /\ st E (span (len p) (len p')) p' w (d_base E loc) loc (snd r).
Proof.
  unfold unmarshal_dt. destruct (y_kind v) eqn:K; try discriminate. intros H.
  apply dbind_inv in H. destruct H as (s & p1 & H1 & H). apply dlift_inv in H1. destruct H1 as [H1 ->].
  apply dbind_inv in H. destruct H as (x & p1 & H2 & H). apply dret_inv in H. destruct H as [-> ->].
  destruct (shape_adds _ _ _ _ _ _ H2) as [A S]. split; auto. eexists. split; [|split; [|exact S]]; [reflexivity|].
  destruct (dt_entries_split _ _ _ _ H1) as (more & Q & Pm & _). unfold entries, type_entries. cbn [y_kind y_content]. rewrite Q. cbn [List.app].
  unfold entries. rewrite K. exact Pm.
Qed.

Lemma decode_dt_adds text path p a p' : source path text -> decode_dt E inc_dt inc_ne inc_lib text path p = (Ok a, p') -> adds p p' /\ from p' path a.
Proof.
  intros So H. unfold decode_dt in H. apply dbind_inv in H. destruct H as (o & p1 & H1 & H).
  assert (Do : p1 = p /\ forall doc, o = Some doc -> if has_suffix ".json" path then doc = json_document text else document E text = Ok (Some doc)).
  { destruct (has_suffix ".json" path); [apply dret_inv in H1|apply dlift_inv in H1]; destruct H1 as [Q ->]; split; auto; intros doc ->; congruence. }
  destruct Do as [-> Do]. destruct o as [v|]; [|discriminate]. specialize (Do v eq_refl).
  apply dbind_inv in H. destruct H as (r & p1 & H2 & H). destruct (unmarshal_dt_read _ _ _ _ _ H2) as (A1 & w & Kw & Ew & Sw).
  apply dbind_inv in H. destruct H as (q & q' & Hq & H). injection Hq as <- <-.
  apply dbind_inv in H. destruct H as (a' & p2 & H3 & H). destruct (alloc_app _ _ _ _ H3) as (Qa & Le & A2 & Na & _). pose proof (near_hp _ _ _ _ H3) as N2.
  apply dbind_inv in H. destruct H as (u & p3 & H4 & H). 
  assert (La : located p2 a' path).
  { destruct (st_located _ _ _ _ _ _ Sw) as (xb & Gx & Qx). exists (snd r), xb. split; [|split; auto].
    - exact Na.
    - eapply app_base; eauto. }
  assert (Lo : forall x, Some a' = Some x -> located p2 x path) by (intros ? Q; injection Q as <-; exact La).
  destruct (put_fragment_step _ _ _ _ _ _ H4 Lo) as (S3 & Ql3 & G3 & _).
  apply dbind_inv in H. destruct H as (u' & p4 & H5 & H). apply dret_inv in H. destruct H as [-> ->].
  assert (B2 : adds p1 p2). { split; auto; [|now apply grown_near]. apply loads_near; auto; [now destruct N2 as (_ & ? & _)|now apply near_libs]. }
  pose proof (app_len _ _ (ad_app _ _ A1)) as L1. pose proof (app_len _ _ A2) as L2. pose proof (app_len _ _ (still_app _ _ S3)) as L3.
  assert (Mi : match oget path (p_frags p1) with None => true | Some _ => false end = true -> oget path (p_frags p1) = None).
  { destruct (oget path (p_frags p1)); [discriminate|auto]. }
  destruct (link_dt_adds _ _ _ _ _ _ _ (grown_trans _ _ _ (ad_grown _ _ B2) G3) Mi H5) as (A4 & Lo4 & G4).
  assert (Ap : app p p3) by (eapply app_trans; [apply A1|]; eapply app_trans; [apply A2|now apply still_app]).
  split.
  2: { right. eapply located_stays; [exact (e_stays _ _ _ _ A4)|]. eapply located_stays; [exact (e_stays _ _ _ _ (still_app _ _ S3))|exact La]. }
  split.
  - eapply app_trans; eauto.
  - refine (loads_trans _ _ _ _ _ _ _ (app_len _ _ Ap) _ Lo4). intros Z F.
    destruct (ad_loads _ _ (adds_trans _ _ _ A1 B2) Z F) as (Z1 & F1 & W1 & W2).
    exists (fun z => Z1 z \/ span (len p) (len p2) z). split.
    + eapply put_loads; [exact So|exact H4|exact Lo| |].
      * apply filed_wide; auto. unfold span. intros. lia.
      * exists v, w, (snd r). repeat (split; auto). apply st_wide with (F := span (len p) (len p2)); auto.
        now apply (span_carry (len p) p1 p2).
    + split; auto. intros z [Hz|Hz]; auto. right. apply Hz.
  - eapply grown_trans; [apply A1|exact G4].
Qed.

Lemma put_adds path f text p u p' : source path text -> f = FNE -> put_fragment path f None p = (Ok u, p') -> adds p p'.
Proof.
  intros So -> H. assert (Lo : forall x, None = Some x -> located p x path) by discriminate. destruct (put_fragment_step _ _ _ _ _ _ H Lo) as (S3 & Ql3 & G3 & _). split; [now apply still_app| |auto].
  intros Z F. exists Z. split; [|apply wider_refl]. eapply put_loads; eauto. cbn. auto.
Qed.

Lemma decode_ne_adds text path p u p' : source path text -> decode_ne E text path p = (Ok u, p') -> adds p p'.
Proof.
  intros So H. unfold decode_ne in H. apply dbind_inv in H. destruct H as (o & p1 & H1 & H). apply dlift_inv in H1. destruct H1 as [_ ->].
  destruct o as [v|].
  - destruct (y_kind v); try discriminate. apply dbind_inv in H. destruct H as (m & p1 & H1 & H).
    eapply adds_trans; [|eapply put_adds; eauto]. eapply adds_run; [| |exact H1]; [apply stills_example_map|apply (al_example_map near along_near_id near_trans)].
  - eapply put_adds; eauto.
Qed.
End Fragments.

Lemma open_source path k text : open_fragment E path k = Ok text -> source path text.
Proof. unfold open_fragment. destruct (e_read (d_y E) path) as [t|] eqn:R; [|discriminate]. destruct (check_kind _ _ _) as [[] ?]; try discriminate. intros H. injection H as <-. now right. Qed.

Lemma parse_ne_adds path p u p' : parse_ne E path p = (Ok u, p') -> adds p p'.
Proof.
  intros H. unfold parse_ne in H. apply dbind_inv in H. destruct H as (q & q' & Hq & H). injection Hq as <- <-.
  destruct (oget path (p_frags p)) as [[]|]; try discriminate.
  - apply dret_inv in H. destruct H as [_ ->]. apply adds_refl.
  - apply dbind_inv in H. destruct H as (text & p1 & H1 & H). apply dlift_inv in H1. destruct H1 as [O ->].
    eapply decode_ne_adds; eauto using open_source.
Qed.

Lemma parse_adds n : (forall path p a p', parse_dt E n path p = (Ok a, p') -> adds p p' /\ from p' path a)
  /\ (forall path p l p', parse_lib E n path p = (Ok l, p') -> adds p p').
Proof.
  induction n as [|n [IHd IHl]]; [split; intros; discriminate|]. split; intros path p r p' H.
  - rewrite parse_dt_eq in H. destruct (oget path (p_frags p)) as [[]|]; try discriminate.
    + destruct (oget path (p_dts p)) eqn:Od; [|discriminate]. injection H as <- <-. split; [apply adds_refl|left; now apply oget_found].
    + apply dbind_inv in H. destruct H as (text & p1 & H1 & H). apply dlift_inv in H1. destruct H1 as [O ->].
      exact (decode_dt_adds _ _ _ IHd parse_ne_adds IHl text path p r p' (open_source _ _ _ O) H).
  - rewrite parse_lib_eq in H. destruct (oget path (p_frags p)) as [[]|]; try discriminate.
    + injection H as _ <-. apply adds_refl.
    + apply dbind_inv in H. destruct H as (text & p1 & H1 & H). apply dlift_inv in H1. destruct H1 as [O ->].
      exact (decode_lib_adds _ _ _ IHd parse_ne_adds IHl text path p r p' (open_source _ _ _ O) H).
Qed.

Lemma decode_fragment_adds n p ep p' : decode_fragment E n text0 path0 p = (Ok ep, p') -> adds p p'.
Proof.
  intros H. assert (So : source path0 text0) by (left; auto). destruct (parse_adds n) as [Pd Pl]. unfold decode_fragment in H.
  destruct (read_head _) as [[head| | |] r]; try discriminate. destruct (identify_fragment head) as [[]| | |]; try discriminate;
    apply dbind_inv in H; destruct H as (x & p1 & H1 & H); apply dret_inv in H; destruct H as [_ ->].
  - exact (decode_lib_adds _ _ _ Pd parse_ne_adds Pl _ _ _ _ _ So H1).
  - exact (proj1 (decode_dt_adds _ _ _ Pd parse_ne_adds Pl _ _ _ _ _ So H1)).
  - exact (decode_ne_adds _ _ _ _ _ So H1).
Qed.
End Files.
