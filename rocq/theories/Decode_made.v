(** Decoding a declaration gives a type as written (C62): the kind and its
    facets on the heap, and the whole declaration. *)
From Coq Require Import ZArith List String Bool Ascii Lia.
From Verif Require Import Base Scalars Heap Rdt Resolve Names Spec_Names Yaml Spec_Yaml Yaml_proofs Pipeline Spec_Resolve Spec_Model
  Decode Parse Spec_Parse Spec_Decode Parse_ends Heap_lemmas Parse_fresh Decode_says Decode_read Decode_facets.
From Verif Require Names_proofs Kind_proofs Pipeline_proofs.
Import ListNotations.
Open Scope string_scope.
Open Scope list_scope.
Open Scope nat_scope.

Section Made.
Variable E : denv.
Variable inc_dt : string -> D addr.
Variable inc_ne : string -> D unit.
Variable rec : ynode -> string -> string -> D addr.
Hypothesis Idt : forall path p u p', inc_dt path p = (Ok u, p') -> app p p' /\ from p' path u.
Hypothesis Ine : forall path p u p', inc_ne path p = (Ok u, p') -> app p p'.
Hypothesis Rec : forall v name loc p x p', rec v name loc p = (Ok x, p') -> app p p' /\ st E (span (len p) (len p')) p' v name loc x.

(** * Facets of a known kind *)

Section Kind.
(** The type at [a], without its kind; the heap had [n] cells when the kind was
    given. *)
Variables (n : nat) (a : addr) (b0 : base) (loc : string) (mz : omap gval).
Hypothesis La : a < n.
Hypothesis Lf : b_facets b0 < n.
Hypothesis Ld : b_fdefs b0 < n.
Hypothesis Li : b_inherits b0 < n.
Hypothesis Naf : b_facets b0 <> a.

Definition with_kind (sh : shape) : base := set_shape (Some sh) b0.
Definition below (sh : shape) (p : pst) : rel := st E (fo n (body a (with_kind sh)) p) p.

Record inv3 (done : list (string * ynode)) (p : pst) (sh : shape) : Prop := {
  i3_low : n <= len p;
  i3_base : get_base (H_ p) a = Some (with_kind sh);
  i3_known : sh <> SUnknown;
  i3_box : forall z, boxes sh z -> n <= z < len p;
  i3_sep : forall f c, sh = SObject f -> o_props f = Some c -> o_pprops f <> Some c;
  i3_read : shape_over E mz p (below sh p) done loc True b0 sh
}.

(** What is overwritten. *)
Definition spot (z : addr) : Prop := z = a \/ z = b_facets b0.

Lemma body_lt sh p z : n <= len p -> (forall z, boxes sh z -> n <= z < len p) -> body a (with_kind sh) z -> z < len p.
Proof.
  intros Ln Bx [->|O]; [lia|]. apply owns_shape in O. destruct O as [->|[->|[->|O]]]; try lia. apply Bx in O. lia.
Qed.
Lemma body_old sh sh' (z : addr) : (forall c, boxes sh' c -> boxes sh c \/ z < c) -> forall c, c <= z -> body a (with_kind sh') c -> body a (with_kind sh) c.
Proof.
  intros B c Lc [->|O]; [now left|]. right. apply owns_shape in O.
  destruct O as [->|[->|[->|O]]]; [exact (ow_facets (with_kind sh))|exact (ow_fdefs (with_kind sh))|exact (ow_inherits (with_kind sh))|].
  destruct (B _ O) as [O'|]; [|lia]. eapply boxes_own; [reflexivity|exact O'].
Qed.

Lemma boxes_same sh sh' p : (forall c, boxes sh' c -> boxes sh c) -> forall z, z < len p -> body a (with_kind sh') z -> body a (with_kind sh) z.
Proof. intros B z _ Q. apply (body_old sh sh' z); auto. Qed.

Lemma inv3_app done p sh p' : inv3 done p sh -> app p p' -> inv3 done p' sh.
Proof.
  intros [Ln G K Bx Sep Rd] A. pose proof (app_len _ _ A) as L. split; auto; try lia.
  - eapply app_base; eauto.
  - intros z Q. specialize (Bx z Q). lia.
  - refine (shape_over_move E mz _ _ p p' _ _ _ _ b0 b0 sh (fo_carry E n _ _ none p p' A _ _) (fun i => i) eq_refl _ _ Rd).
    + intros z [].
    + auto.
    + intros m Gm. rewrite <- Gm. apply get_facets_same. apply (e_cells _ _ _ _ A); [lia|intros []].
    + intros c m Q Gm. rewrite <- Gm. apply get_props_same. specialize (Bx c Q). apply (e_cells _ _ _ _ A); [lia|intros []].
Qed.

(** The kind has new facets. *)
Lemma inv3_own done done' p sh p' sh' : inv3 done p sh -> change a (CBase (with_kind sh')) p p' ->
  (forall c, boxes sh' c <-> boxes sh c) -> sh' <> SUnknown -> (forall f c, sh' = SObject f -> o_props f = Some c -> o_pprops f <> Some c) ->
  (shape_over E mz p' (below sh' p') done loc True b0 sh -> shape_over E mz p' (below sh' p') done' loc True b0 sh') ->
  inv3 done' p' sh'.
Proof.
  intros [Ln G K Bx Sep Rd] C B K' Sep' Rd'. pose proof (c_len _ _ _ _ C) as L.
  assert (Ed : edit (eq a) (len p) p p') by (apply (change_edit _ _ a _ _ _ C); auto).
  assert (Ne : forall c, nth_error (H_ p) c <> Some (CBase (with_kind sh)) -> nth_error (H_ p') c = nth_error (H_ p) c).
  { intros c N. apply (c_old _ _ _ _ C). intros ->. apply N. now apply get_base_nth. }
  split; auto; try lia.
  - apply get_base_nth. exact (c_new _ _ _ _ C).
  - intros z Q. apply B in Q. specialize (Bx z Q). lia.
  - apply Rd'. refine (shape_over_move E mz _ _ p p' _ _ _ _ b0 b0 sh (fo_carry E n _ _ (eq a) p p' Ed _ _) (fun i => i) eq_refl _ _ Rd).
    + intros z <-. now left.
    + apply boxes_same. intros c. apply B.
    + intros m Gm. rewrite <- Gm. apply get_facets_same. apply Ne. intros Q. unfold get_facets in Gm. rewrite Q in Gm. discriminate.
    + intros c m _ Gm. rewrite <- Gm. apply get_props_same. apply Ne. intros Q. unfold get_props in Gm. rewrite Q in Gm. discriminate.
Qed.

Lemma over_snoc l m k v d : over E mz loc l m -> value_of E loc v d -> over E mz loc (l ++ [(k, v)]) (oset k d m).
Proof.
  intros O V k'. specialize (O k'). rewrite last_of_snoc. destruct (String.eqb_spec k' k) as [->|N].
  - exists d. split; auto. apply Pipeline_proofs.oget_oset_same.
  - rewrite Pipeline_proofs.oget_oset_other by auto. exact O.
Qed.

(** One more custom facet. *)
Lemma custom_read done p sh key v u p' : inv3 done p sh -> reads_custom sh = true -> existsb (String.eqb key) (facet_names sh) = false ->
  custom_facet E a loc key v p = (Ok u, p') -> inv3 (done ++ [(key, v)]) p' sh /\ edit spot n p p'.
Proof.
  intros I Rc N H. pose proof I as [Ln G K Bx Sep Rd]. unfold custom_facet in H. apply dbind_inv in H. destruct H as (x & p1 & H1 & H).
  apply dlift_inv in H1. destruct H1 as [V ->]. apply root_node_sound in V.
  apply hp_ok in H. destruct H as (s' & H & ->). apply bind_inv in H. destruct H as (b & s1 & R1 & H). apply rd_ok in R1. destruct R1 as [-> Gb].
  unfold H_ in G. rewrite G in Gb. injection Gb as <-. cbn [with_kind b_facets set_shape] in H.
  apply bind_inv in H. destruct H as (m & s1 & R1 & H). apply rd_ok in R1. destruct R1 as [-> Gm].
  destruct Rd as (Fr & (m1 & Gm0 & Fi) & Tl). unfold H_ in Gm0. rewrite Gm in Gm0. injection Gm0 as <-.
  assert (C : change (b_facets b0) (CFacets (oset key x m)) p (with_st p s')).
  { apply (write_change _ _ p tt); [lia|exact (alike_facets p _ m _ Gm)|]. unfold hp. destruct u. rewrite H. reflexivity. }
  set (p' := with_st p s') in *. pose proof (c_len _ _ _ _ C) as L.
  assert (Ed : edit (eq (b_facets b0)) (len p) p p') by (apply (change_edit _ _ _ _ _ _ C); auto).
  assert (Cr : carries (below sh p) (below sh p') p p').
  { apply (fo_carry E n _ _ (eq (b_facets b0)) p p' Ed); auto. intros z <-. right. exact (ow_facets (with_kind sh)). }
  split; [|apply (change_edit _ _ _ _ _ _ C); [lia|intros; right; auto]].
  split; auto; try lia.
  - rewrite <- G. apply get_base_same. apply (c_old _ _ _ _ C). auto.
  - intros z Q. specialize (Bx z Q). lia.
  - split; [now apply read_skip|]. split.
    + exists (oset key x m). split; [apply get_facets_nth; exact (c_new _ _ _ _ C)|].
      rewrite custom_snoc, (custom_out sh key v Rc N). now apply over_snoc.
    + destruct sh; auto.
      * intros I0. apply field_none; [|eapply field_weak; [|exact (Tl I0)]; intros y z Q; now apply (Cr _ _ _ _ Q)].
        cbn [facet_names existsb] in N. rewrite String.eqb_sym. repeat (apply orb_false_iff in N; destruct N as [? N]); auto.
      * destruct Tl as [T1 T2].
        assert (Np : String.eqb key "properties" = false).
        { cbn [facet_names existsb] in N. repeat (apply orb_false_iff in N; destruct N as [? N]); auto. }
        unfold plain_properties, pattern_properties in *. rewrite !all_snoc, Np, app_nil_r.
        assert (Pr : forall c m', boxes (SObject f) c -> get_props (H_ p) c = Some m' -> get_props (H_ p') c = Some m').
        { intros c m' Q Gc. rewrite <- Gc. apply get_props_same. apply (c_old _ _ _ _ C). intros ->. specialize (Bx _ Q). lia. }
        split.
        -- refine (property_map_move p p' _ _ _ _ _ _ T1); [intros k0 n0 nm pr; now apply plain_move|]. intros c m' Q. apply Pr. now left.
        -- refine (property_map_move p p' _ _ _ _ _ _ T2); [intros k0 n0 nm pr; now apply pattern_move|]. intros c m' Q. apply Pr. now right.
Qed.

Lemma own_read {F} done p sh key v (r : res (option F)) (mk : F -> shape) u p' : inv3 done p sh -> reads_custom sh = true ->
  (r = Ok None -> existsb (String.eqb key) (facet_names sh) = false) ->
  (forall f, r = Ok (Some f) -> (forall c, boxes (mk f) c <-> boxes sh c) /\ mk f <> SUnknown
     /\ (forall f0 c, mk f = SObject f0 -> o_props f0 = Some c -> o_pprops f0 <> Some c) /\ kind_name (mk f) = kind_name sh
     /\ forall q R, shape_over E mz q R done loc True b0 sh -> shape_over E mz q R (done ++ [(key, v)]) loc True b0 (mk f)) ->
  own_facet E a loc key v r mk p = (Ok u, p') ->
  exists sh', inv3 (done ++ [(key, v)]) p' sh' /\ edit spot n p p' /\ kind_name sh' = kind_name sh.
Proof.
  intros I Rc Nn Ss H. unfold own_facet in H. apply dbind_inv in H. destruct H as (o & p1 & H1 & H). apply dlift_inv in H1. destruct H1 as [-> ->].
  destruct o as [f|].
  - destruct (Ss f eq_refl) as (S1 & S2 & S3 & S4 & S5). destruct (upd_change _ _ _ _ _ H (fun _ _ => eq_refl)) as (b & G & C & _).
    rewrite (i3_base _ _ _ I) in G. injection G as <-. exists (mk f). split; [|split; auto].
    + eapply inv3_own; eauto.
    + apply (change_edit _ _ _ _ _ _ C); [exact (i3_low _ _ _ I)|]. intros _. now left.
  - exists sh. destruct (custom_read done p sh key v u p') as [A B]; auto.
Qed.

(** Scalars: only the facets matter. *)
Lemma scalar_read sh sh' key v done : reads_custom sh' = true -> facet_names sh' = facet_names sh -> reads_custom sh = true ->
  (match sh' with SArray _ | SObject _ => False | _ => True end) ->
  facets_read E loc sh' (done ++ [(key, v)]) -> existsb (String.eqb key) (facet_names sh) = true ->
  forall q R, shape_over E mz q R done loc True b0 sh -> shape_over E mz q R (done ++ [(key, v)]) loc True b0 sh'.
Proof.
  intros Rc Nm Rc' Sc Fr Kn q R (_ & (m & G & Fi) & _). split; auto. split.
  - exists m. split; auto. rewrite custom_snoc, custom_in, app_nil_r by (now rewrite Nm).
    assert (Q : custom_of sh' done = custom_of sh done).
    { destruct sh, sh'; try discriminate Rc; try discriminate Rc'; cbn [custom_of]; try reflexivity; cbn [facet_names] in *; try discriminate Nm; try rewrite Nm; reflexivity. }
    now rewrite Q.
  - destruct sh'; auto; contradiction.
Qed.

Lemma items_step done p f v u p' : inv3 done p (SArray f) ->
  (x <- rec v "items" loc ;; hp (upd_arr a (set_items (Some x))))%D p = (Ok u, p') ->
  exists sh', inv3 (done ++ [("items", v)]) p' sh' /\ edit spot n p p' /\ kind_name sh' = "array".
Proof.
  intros I H. apply dbind_inv in H. destruct H as (x & p1 & H1 & H). destruct (Rec _ _ _ _ _ _ H1) as [A Sx].
  pose proof (app_len _ _ A) as L1. pose proof (inv3_app _ _ _ _ I A) as I1. pose proof (i3_low _ _ _ I) as Ln.
  apply hp_ok in H. destruct H as (s' & H & ->). unfold upd_arr in H. apply bind_inv in H. destruct H as (b & s1 & R1 & H).
  apply rd_ok in R1. destruct R1 as [-> Gb]. pose proof (i3_base _ _ _ I1) as G1. unfold H_ in G1. rewrite G1 in Gb. injection Gb as <-.
  cbn [with_kind b_shape set_shape] in H. set (sh' := SArray (set_items (Some x) f)).
  assert (C : change a (CBase (with_kind sh')) p1 (with_st p1 s')).
  { apply (write_change _ _ p1 tt); [lia|apply (alike_base p1 _ _ _ G1); reflexivity|]. unfold hp. destruct u.
    change (set_shape (Some (SArray (set_items (Some x) f))) (with_kind (SArray f))) with (with_kind sh') in H. rewrite H. reflexivity. }
  set (p' := with_st p1 s') in *. exists sh'.
  assert (Ed : edit (eq a) (len p1) p1 p') by (apply (change_edit _ _ a _ _ _ C); auto).
  split; [|split; [|reflexivity]].
  - eapply inv3_own; [exact I1|exact C|cbn; tauto|discriminate|discriminate|].
    intros (Fr & (m & G & Fi) & Tl). split; [|split].
    + destruct Fr as (F1 & F2 & F3). cbn. repeat split; apply field_as_none; auto.
    + exists m. split; auto. rewrite custom_snoc, custom_in, app_nil_r by reflexivity. exact Fi.
    + intros _. cbn [a_items set_items]. apply field_some.
      assert (Cr : carries (st E (fo n (body a (with_kind sh')) p1) p1) (below sh' p') p1 p').
      { apply (fo_carry E n _ _ (eq a) p1 p' Ed); auto. intros z <-. now left. }
      apply (Cr v "items" loc x). apply (span_fo E n _ p p1); auto.
      intros z. apply (body_lt sh' p); auto. intros y [].
  - eapply edit_trans; [apply app_edit; [|exact A]; auto|]. eapply edit_weak; [| |exact Ed]; [lia|]. intros z _ <-. now left.
Qed.

(** ** Properties *)

(** A node with these entries. *)
Definition node_of (ps : list (string * ynode)) : ynode := Y KMap "" "" (flat_map (fun kv => [Y KScalar "" (fst kv) []; snd kv]) ps).
Lemma pairs_node ps : pairs (y_content (node_of ps)) = ps.
Proof. cbn. induction ps as [|[k v] ps IH]; cbn; congruence. Qed.

Lemma own_props_read (get : obj_facets -> option addr) (set : option addr -> obj_facets -> obj_facets) done p f m p1 :
  inv3 done p (SObject f) -> own_props a get set p = (Ok m, p1) ->
  (get f = Some m /\ p1 = p)
  \/ (get f = None /\ m = len p /\ len p1 = S (len p) /\ get_props (H_ p1) m = Some []
      /\ get_base (H_ p1) a = Some (with_kind (SObject (set (Some m) f))) /\ edit (eq a) (len p) p p1).
Proof.
  intros I H. pose proof (i3_base _ _ _ I) as G. pose proof (i3_low _ _ _ I) as Ln. apply hp_ok in H. destruct H as (s' & H & ->). apply bind_inv in H.
  destruct H as (b & s1 & R1 & H). apply rd_ok in R1. destruct R1 as [-> Gb]. unfold H_ in G. rewrite G in Gb. injection Gb as <-.
  cbn [with_kind b_shape set_shape] in H. destruct (get f) as [m0|] eqn:Q.
  - left. unfold ret in H. injection H as -> <-. split; auto. destruct p; reflexivity.
  - right. apply bind_inv in H. destruct H as (m0 & s1 & H1 & H). apply bind_inv in H. destruct H as (u & s2 & H2 & H).
    unfold ret in H. injection H as -> <-.
    assert (X1 : hp (alloc (CProps [])) p = (Ok m, with_st p s1)) by (unfold hp; rewrite H1; reflexivity).
    destruct (alloc_app _ _ _ _ X1) as (Qm & L1 & A1 & N1 & _ & _).
    assert (X2 : hp (upd_base a (set_shape (Some (SObject (set (Some m) f))))) (with_st p s1) = (Ok u, with_st p s2)).
    { unfold hp. cbn [p_st with_st]. rewrite H2. reflexivity. }
    destruct (upd_change _ _ _ _ _ X2 (fun _ _ => eq_refl)) as (b & Gb & C & G2). pose proof (app_base _ _ _ _ A1 G) as G1. rewrite G1 in Gb. injection Gb as <-.
    split; auto. split; auto. split; [rewrite (c_len _ _ _ _ C); auto|]. split; [|split; [exact G2|]].
    + apply get_props_nth. rewrite (c_old _ _ _ _ C) by lia. exact N1.
    + eapply edit_trans; [apply app_edit; [|exact A1]; auto|]. apply (change_edit _ _ a _ _ _ C); auto. lia.
Qed.

(** One more property in one of the two maps; [other] is the other map. *)
Lemma add_prop (get other : obj_facets -> option addr) (set : option addr -> obj_facets -> obj_facets)
    (Qg Qo : pst -> rel -> string -> ynode -> string -> prop -> Prop) lg lo done p f m p1 p2 p' key v k pr :
  (forall o f0, get (set o f0) = o) -> (forall o f0, other (set o f0) = other f0) ->
  (forall f0 c, boxes (SObject f0) c <-> get f0 = Some c \/ other f0 = Some c) ->
  (forall (R R' : rel) q q' k0 n0 nm pr0, carries R R' q q' -> Qg q R k0 n0 nm pr0 -> Qg q' R' k0 n0 nm pr0) ->
  (forall (R R' : rel) q q' k0 n0 nm pr0, carries R R' q q' -> Qo q R k0 n0 nm pr0 -> Qo q' R' k0 n0 nm pr0) ->
  inv3 done p (SObject f) -> (forall c, get f = Some c -> other f <> Some c) ->
  property_map p (Qg p (below (SObject f) p)) lg (get f) -> property_map p (Qo p (below (SObject f) p)) lo (other f) ->
  own_props a get set p = (Ok m, p1) -> app p1 p2 ->
  (forall R : rel, (forall v0 n0 l0 x, st E (span (len p1) (len p2)) p2 v0 n0 l0 x -> R v0 n0 l0 x) -> Qg p2 R key v k pr) ->
  forall l, get_props (H_ p2) m = Some l -> change m (CProps (oset k pr l)) p2 p' ->
  exists f', get_base (H_ p') a = Some (with_kind (SObject f')) /\ (f' = f \/ f' = set (Some m) f) /\ get f' = Some m
    /\ (forall c, boxes (SObject f') c -> n <= c < len p') /\ other f' <> Some m
    /\ edit spot n p p' /\ n <= len p'
    /\ (forall c, ~ boxes (SObject f') c -> c < len p -> c <> a -> nth_error (H_ p') c = nth_error (H_ p) c)
    /\ property_map p' (Qg p' (below (SObject f') p')) (lg ++ [(key, v)]) (get f')
    /\ property_map p' (Qo p' (below (SObject f') p')) lo (other f').
Proof.
  intros Gs Os Bs Mg Mo I Sep Pg Po Hm A2 Qn l Gl C. pose proof I as [Ln G K Bx _ Rd].
  destruct (own_props_read get set done p f m p1 I Hm) as [[Qf ->]|(Qf & Qm & L1 & Gm1 & G1 & E1)].
  - (* the map is there *)
    assert (Bm : boxes (SObject f) m) by (apply Bs; auto). pose proof (Bx _ Bm) as Lm. pose proof (app_len _ _ A2) as L2. pose proof (c_len _ _ _ _ C) as L3.
    assert (E2 : edit (eq m) (len p) p p').
    { eapply edit_trans; [apply app_edit; [|exact A2]; auto|]. apply (change_edit _ _ m _ _ _ C); auto. }
    assert (E2' : edit (eq m) (len p2) p2 p') by (apply (change_edit _ _ m _ _ _ C); auto).
    assert (Bo : forall z, eq m z -> body a (with_kind (SObject f)) z) by (intros z <-; right; eapply boxes_own; [reflexivity|exact Bm]).
    assert (Cr : carries (below (SObject f) p) (below (SObject f) p') p p') by (apply (fo_carry E n _ _ (eq m) p p' E2); auto).
    assert (Cr2 : carries (below (SObject f) p2) (below (SObject f) p') p2 p') by (apply (fo_carry E n _ _ (eq m) p2 p' E2'); auto).
    exists f. split; [|split; [auto|split; [auto|split; [|split; [auto|split; [|split; [lia|split; [|split]]]]]]]].
    + rewrite <- G. apply get_base_same. apply (e_cells _ _ _ _ E2); [lia|]. intros <-. lia.
    + intros c Q. specialize (Bx c Q). lia.
    + eapply edit_weak; [| |exact E2]; [lia|]. intros z Lz <-. lia.
    + intros c Nb Lc Na. apply (e_cells _ _ _ _ E2); auto. intros <-. auto.
    + rewrite Qf in *. cbn in Pg |- *. destruct Pg as (_ & l0 & G0 & Fl). split; [destruct lg; discriminate|].
      assert (l0 = l). { rewrite (get_props_same (H_ p)) in Gl; [unfold H_ in Gl; congruence|]. apply (e_cells _ _ _ _ A2); [lia|intros []]. } subst l0.
      exists (oset k pr l). split; [apply get_props_nth; exact (c_new _ _ _ _ C)|]. constructor.
      * eapply filled_weak; [|exact Fl]. intros k0 n0 nm pr0. now apply Mg.
      * apply (Mg (below (SObject f) p2) _ p2 p'); auto. apply Qn. intros v0 n0 l0 x Sx. apply (span_fo E n _ p p2); auto.
        intros z. apply (body_lt (SObject f) p); auto.
    + refine (property_map_move p p' _ _ _ _ _ _ Po); [intros k0 n0 nm pr0; now apply Mo|].
      intros c m' Q Gc. rewrite <- Gc. apply get_props_same. apply (e_cells _ _ _ _ E2).
      * apply get_props_nth in Gc. eapply nth_error_lt; eauto.
      * intros <-. exact (Sep _ Qf Q).
  - (* a new map *)
    set (f' := set (Some m) f) in *. pose proof (app_len _ _ A2) as L2. pose proof (c_len _ _ _ _ C) as L3.
    assert (Bm : boxes (SObject f') m) by (apply Bs; left; apply Gs).
    assert (Bf : forall c, boxes (SObject f') c -> c = m \/ boxes (SObject f) c).
    { intros c Q. apply Bs in Q. unfold f' in Q. rewrite Gs, Os in Q. destruct Q as [Q|Q]; [left; congruence|right; apply Bs; auto]. }
    assert (E2 : edit (eq a) (len p) p p').
    { eapply edit_trans; [exact E1|]. eapply edit_trans; [apply app_edit; [|exact A2]; lia|]. apply (change_edit _ _ m _ _ _ C); lia. }
    assert (E2' : edit (eq m) (len p2) p2 p') by (apply (change_edit _ _ m _ _ _ C); auto).
    assert (Cr : carries (below (SObject f) p) (below (SObject f') p') p p').
    { apply (fo_carry E n _ _ (eq a) p p' E2); [intros z <-; now left|]. intros z Lz [->|O]; [now left|]. right. apply owns_shape in O.
      destruct O as [->|[->|[->|O]]];
        [exact (ow_facets (with_kind (SObject f)))|exact (ow_fdefs (with_kind (SObject f)))|exact (ow_inherits (with_kind (SObject f)))|]. destruct (Bf _ O) as [->|O']; [lia|].
      eapply boxes_own; [reflexivity|exact O']. }
    assert (Cr2 : carries (below (SObject f') p2) (below (SObject f') p') p2 p').
    { apply (fo_carry E n _ _ (eq m) p2 p' E2'); auto. intros z <-. right. eapply boxes_own; [reflexivity|exact Bm]. }
    exists f'. split; [|split; [auto|split; [apply Gs|split; [|split; [|split; [|split; [lia|split; [|split]]]]]]]].
    + rewrite <- G1. apply get_base_same. rewrite (c_old _ _ _ _ C) by lia. apply (e_cells _ _ _ _ A2); [lia|intros []].
    + intros c Q. destruct (Bf _ Q) as [->|Q']; [lia|]. specialize (Bx c Q'). lia.
    + unfold f'. rewrite Os. intros Q. assert (Bc : boxes (SObject f) m) by (apply Bs; auto). specialize (Bx _ Bc). lia.
    + eapply edit_weak; [| |exact E2]; [lia|]. intros z Lz <-. now left.
    + intros c Nb Lc Na. apply (e_cells _ _ _ _ E2); auto.
    + rewrite Qf in Pg. cbn in Pg. subst lg. unfold f' at 2. rewrite Gs. cbn. split; [discriminate|].
      assert (l = []). { rewrite (get_props_same (H_ p1)) in Gl; [unfold H_ in Gl, Gm1; congruence|]. apply (e_cells _ _ _ _ A2); [lia|intros []]. } subst l.
      exists (oset k pr []). split; [apply get_props_nth; exact (c_new _ _ _ _ C)|]. apply (fl_snoc _ [] [] key v k pr); [constructor|].
      apply (Mg (below (SObject f') p2) _ p2 p'); auto. apply Qn. intros v0 n0 l0 x Sx. apply (span_fo E n _ p1 p2); auto; try lia.
      intros z. apply (body_lt (SObject f') p1); [lia|]. intros c Q. destruct (Bf _ Q) as [->|Q']; [lia|]. specialize (Bx c Q'). lia.
    + unfold f' at 2. rewrite Os. refine (property_map_move p p' _ _ _ _ _ _ Po); [intros k0 n0 nm pr0; now apply Mo|].
      intros c m' Q Gc. rewrite <- Gc. apply get_props_same. apply (e_cells _ _ _ _ E2).
      * apply get_props_nth in Gc. eapply nth_error_lt; eauto.
      * intros <-. apply get_base_nth in G. unfold get_props in Gc. rewrite G in Gc. discriminate.
Qed.

Lemma facets_read_obj f f' fs : o_disc f' = o_disc f -> o_discval f' = o_discval f -> o_addl f' = o_addl f -> o_min f' = o_min f -> o_max f' = o_max f ->
  facets_read E loc (SObject f) fs -> facets_read E loc (SObject f') fs.
Proof. intros A B C D F. cbn. now rewrite A, B, C, D, F. Qed.

Lemma props_node done v : all_properties (done ++ [("properties", v)]) = all_properties done ++ pairs (y_content v).
Proof. now rewrite all_snoc. Qed.

(** The node of the properties counts only for its entries. *)
Lemma same_props done v v' p f : pairs (y_content v) = pairs (y_content v') ->
  inv3 (done ++ [("properties", v)]) p (SObject f) -> inv3 (done ++ [("properties", v')]) p (SObject f).
Proof.
  intros Q [Ln G K Bx Sep (Fr & (m & Gm & Fi) & T1 & T2)]. split; auto. split; [|split].
  - destruct Fr as (F1 & F2 & F3 & F4 & F5). cbn in *. unfold field_as in *. rewrite !last_of_snoc in *. cbn [String.eqb Ascii.eqb Bool.eqb] in *. auto.
  - exists m. split; auto. rewrite custom_snoc, custom_in in * by reflexivity. exact Fi.
  - unfold plain_properties, pattern_properties in *. rewrite props_node in *. now rewrite <- Q.
Qed.

Lemma one_property_read done ps p f key v u p' : inv3 (done ++ [("properties", node_of ps)]) p (SObject f) ->
  one_property E rec a loc key v p = (Ok u, p') ->
  exists f', inv3 (done ++ [("properties", node_of (ps ++ [(key, v)]))]) p' (SObject f') /\ edit spot n p p'.
Proof.
  intros I H. unfold one_property in H. destruct (chomp_optional key) as [name opt] eqn:Ch.
  pose proof I as [Ln G K Bx Sep (Fr & (mc & Gm0 & Fi) & T1 & T2)].
  assert (Fin : forall f', get_base (H_ p') a = Some (with_kind (SObject f')) ->
     o_disc f' = o_disc f -> o_discval f' = o_discval f -> o_addl f' = o_addl f -> o_min f' = o_min f -> o_max f' = o_max f ->
     (forall c, boxes (SObject f') c -> n <= c < len p') -> (forall c, o_props f' = Some c -> o_pprops f' <> Some c) ->
     edit spot n p p' -> n <= len p' ->
     (forall c, ~ boxes (SObject f') c -> c < len p -> c <> a -> nth_error (H_ p') c = nth_error (H_ p) c) ->
     property_map p' (plain_property E p' (below (SObject f') p') loc)
       (plain_properties (done ++ [("properties", node_of (ps ++ [(key, v)]))])) (o_props f') ->
     property_map p' (pattern_property E p' (below (SObject f') p') loc)
       (pattern_properties (done ++ [("properties", node_of (ps ++ [(key, v)]))])) (o_pprops f') ->
     exists f', inv3 (done ++ [("properties", node_of (ps ++ [(key, v)]))]) p' (SObject f') /\ edit spot n p p').
  { intros f' G' Q1 Q2 Q3 Q4 Q5 Bx' Sep' Ed Ln' Cs P1 P2. exists f'. split; auto. split; auto; try discriminate.
    - intros f0 c Q. injection Q as <-. apply Sep'.
    - split; [|split; [|split; auto]].
      + apply (facets_read_obj f f'); auto. destruct Fr as (F1 & F2 & F3 & F4 & F5).
        cbn in *. unfold field_as in *. rewrite !last_of_snoc in *. cbn [String.eqb Ascii.eqb Bool.eqb] in *. auto.
      + exists mc. split.
        * rewrite <- Gm0. apply get_facets_same. apply Cs; auto; try lia. intros Q. specialize (Bx' _ Q). lia.
        * rewrite custom_snoc, custom_in in * by reflexivity. exact Fi. }
  assert (Pk : pattern_key key = is_pattern_name name) by (unfold pattern_key; now rewrite Ch).
  unfold plain_properties, pattern_properties in *. rewrite props_node, pairs_node in *.
  rewrite !filter_app in *. 
  destruct (is_pattern_name name) eqn:Pn.
  - apply dbind_inv in H. destruct H as (m & p1 & Hm & H). apply dbind_inv in H. destruct H as (x & p2 & Hx & H).
    destruct (Rec _ _ _ _ _ _ Hx) as [A2 Sx]. apply dbind_inv in H. destruct H as (xb & p3 & R3 & H). apply rd_step in R3. destruct R3 as [-> Gx].
    apply dbind_inv in H. destruct H as (d & p3 & R3 & H). apply dlift_inv in R3. destruct R3 as [Md ->].
    destruct d as [|k re]; [discriminate|]. destruct (props_change _ _ _ _ _ _ H) as (l & Gl & C & _).
    assert (Dc : declares (d_re E) key (b_required xb) (DPattern k re)).
    { apply Names_proofs.declare_iff. unfold declare_property. now rewrite Ch, Pn. }
    assert (Bs : forall f0 c, boxes (SObject f0) c <-> o_pprops f0 = Some c \/ o_props f0 = Some c) by (intros f0 c; cbn; tauto).
    destruct (add_prop o_pprops o_props set_pprops (fun q R => pattern_property E q R loc) (fun q R => plain_property E q R loc)
      _ _ _ p f m p1 p2 p' key v k (Prop_ re x false) (fun _ _ => eq_refl) (fun _ _ => eq_refl) Bs
      (fun R R' q q' k0 n0 nm pr0 => pattern_move E R R' q q' loc k0 n0 nm pr0) (fun R R' q q' k0 n0 nm pr0 => plain_move E R R' q q' loc k0 n0 nm pr0)
      I (fun c Q Q' => Sep f c eq_refl Q' Q) T2 T1 Hm A2) with (l := l) as (f' & G' & Qf & Gf & Bf & Of & Ed & Ln' & Cs & Pg & Po); auto.
    + intros R Hr. split; [apply Hr; exact Sx|]. exists xb. split; auto.
    + apply (Fin f'); auto; try (destruct Qf as [-> | ->]; reflexivity).
      * intros c Q Q'. rewrite Gf in Q'. injection Q' as <-. auto.
      * cbn [filter fst]. rewrite Pk. cbn. rewrite app_nil_r. exact Po.
      * cbn [filter fst]. rewrite Pk. rewrite app_assoc. exact Pg.
  - apply dbind_inv in H. destruct H as (m & p1 & Hm & H). apply dbind_inv in H. destruct H as (pr & p2 & Hx & H).
    destruct (property_read E rec Rec _ _ _ _ _ _ Hx) as (A2 & Sx & xb & Gx & _ & Mp).
    destruct (props_change _ _ _ _ _ _ H) as (l & Gl & C & _).
    assert (Dc : declares (d_re E) key (b_required xb) (DProp (p_name pr) (p_req pr))).
    { apply Names_proofs.declare_iff. unfold declare_property. rewrite Ch in Mp |- *. cbn in Mp. rewrite Pn, Mp. reflexivity. }
    assert (Bs : forall f0 c, boxes (SObject f0) c <-> o_props f0 = Some c \/ o_pprops f0 = Some c) by (intros f0 c; cbn; tauto).
    destruct (add_prop o_props o_pprops set_props (fun q R => plain_property E q R loc) (fun q R => pattern_property E q R loc)
      _ _ _ p f m p1 p2 p' key v (p_name pr) pr (fun _ _ => eq_refl) (fun _ _ => eq_refl) Bs
      (fun R R' q q' k0 n0 nm pr0 => plain_move E R R' q q' loc k0 n0 nm pr0) (fun R R' q q' k0 n0 nm pr0 => pattern_move E R R' q q' loc k0 n0 nm pr0)
      I (fun c Q => Sep f c eq_refl Q) T1 T2 Hm A2) with (l := l) as (f' & G' & Qf & Gf & Bf & Of & Ed & Ln' & Cs & Pg & Po); auto.
    + intros R Hr. split; auto. split; [apply Hr; exact Sx|]. exists xb. split; auto.
    + apply (Fin f'); auto; try (destruct Qf as [-> | ->]; reflexivity).
      * intros c Q Q'. rewrite Gf in Q. injection Q as <-. auto.
      * cbn [filter fst]. rewrite Pk. cbn [negb]. rewrite app_assoc. exact Pg.
      * cbn [filter fst]. rewrite Pk. rewrite app_nil_r. exact Po.
Qed.

Lemma properties_read done : forall l ps p f u p', inv3 (done ++ [("properties", node_of ps)]) p (SObject f) ->
  properties E rec a loc l p = (Ok u, p') ->
  exists f', inv3 (done ++ [("properties", node_of (ps ++ pairs l))]) p' (SObject f') /\ edit spot n p p'.
Proof.
  induction l as [|k|k v l IH] using pair_induction; intros ps p f u p' I H; cbn [properties] in H.
  - apply dret_inv in H. destruct H as [_ ->]. exists f. cbn. rewrite app_nil_r. split; auto. apply edit_refl. exact (i3_low _ _ _ I).
  - apply dret_inv in H. destruct H as [_ ->]. exists f. cbn. rewrite app_nil_r. split; auto. apply edit_refl. exact (i3_low _ _ _ I).
  - apply dbind_inv in H. destruct H as (u1 & p1 & H1 & H). destruct (one_property_read _ _ _ _ _ _ _ _ I H1) as (f1 & I1 & E1).
    destruct (IH _ _ _ _ _ I1 H) as (f2 & I2 & E2). exists f2. cbn [pairs]. rewrite <- app_assoc in I2. split; auto. eapply edit_trans; eauto.
Qed.

Lemma facet_read done p sh key v u p' : inv3 done p sh -> facet E rec a loc key v p = (Ok u, p') ->
  exists sh', inv3 (done ++ [(key, v)]) p' sh' /\ edit spot n p p' /\ kind_name sh' = kind_name sh.
Proof.
  intros I H. unfold facet in H. apply dbind_inv in H. destruct H as (b & p1 & R1 & H). apply rd_step in R1. destruct R1 as [-> Gb].
  pose proof (i3_base _ _ _ I) as G. rewrite G in Gb. injection Gb as <-. cbn [with_kind b_shape set_shape] in H.
  assert (Custom : forall sh0, sh0 = sh -> custom_facet E a loc key v p = (Ok u, p') -> reads_custom sh0 = true -> facet_names sh0 = [] ->
    exists sh', inv3 (done ++ [(key, v)]) p' sh' /\ edit spot n p p' /\ kind_name sh' = kind_name sh0).
  { intros sh0 -> Hc Rc Fn. exists sh. destruct (custom_read done p sh key v u p') as [A B]; auto. now rewrite Fn. }
  assert (Ignore : forall sh0, sh0 = sh -> dret tt p = (Ok u, p') -> facet_names sh0 = [] -> reads_custom sh0 = false ->
    exists sh', inv3 (done ++ [(key, v)]) p' sh' /\ edit spot n p p' /\ kind_name sh' = kind_name sh0).
  { intros sh0 -> Hr Fn Rc. apply dret_inv in Hr. destruct Hr as [_ ->]. exists sh. split; [|split; [apply edit_refl; exact (i3_low _ _ _ I)|auto]].
    destruct I as [Ln G0 K Bx Sep (Fr & Cu & Tl)]. split; auto. split; [destruct sh; try discriminate Rc; exact Fr|].
    split; [destruct sh; try discriminate Rc; exact Cu|]. destruct sh; try discriminate Rc; auto. }
  destruct sh as [| |f|f|f|f|f|f| | | |f|f|sl e|txt| |hd]; try (apply (Custom _ eq_refl H); reflexivity); try (apply (Ignore _ eq_refl H); reflexivity).
  - refine (own_read done p _ key v _ SInt u p' I eq_refl (int_none E loc key v f) _ H). intros f' Q.
    split; [cbn; tauto|]. split; [discriminate|]. split; [discriminate|]. split; [reflexivity|].
    intros q R Rd. pose proof Rd as (Fr & _). destruct (int_read E loc key v f f' done Q Fr) as [A B].
    apply (scalar_read (SInt f) (SInt f')); auto; try reflexivity.
  - refine (own_read done p _ key v _ SNum u p' I eq_refl (num_none E loc key v f) _ H). intros f' Q.
    split; [cbn; tauto|]. split; [discriminate|]. split; [discriminate|]. split; [reflexivity|].
    intros q R Rd. pose proof Rd as (Fr & _). destruct (num_read E loc key v f f' done Q Fr) as [A B].
    apply (scalar_read (SNum f) (SNum f')); auto; try reflexivity.
  - refine (own_read done p _ key v _ SStr u p' I eq_refl (str_none E loc key v f) _ H). intros f' Q.
    split; [cbn; tauto|]. split; [discriminate|]. split; [discriminate|]. split; [reflexivity|].
    intros q R Rd. pose proof Rd as (Fr & _). destruct (str_read E loc key v f f' done Q Fr) as [A B].
    apply (scalar_read (SStr f) (SStr f')); auto; try reflexivity.
  - refine (own_read done p _ key v _ SFile u p' I eq_refl (file_none E loc key v f) _ H). intros f' Q.
    split; [cbn; tauto|]. split; [discriminate|]. split; [discriminate|]. split; [reflexivity|].
    intros q R Rd. pose proof Rd as (Fr & _). destruct (file_read E loc key v f f' done Q Fr) as [A B].
    apply (scalar_read (SFile f) (SFile f')); auto; try reflexivity.
  - refine (own_read done p _ key v _ SBool u p' I eq_refl (bool_none E loc key v f) _ H). intros f' Q.
    split; [cbn; tauto|]. split; [discriminate|]. split; [discriminate|]. split; [reflexivity|].
    intros q R Rd. pose proof Rd as (Fr & _). destruct (bool_read E loc key v f f' done Q Fr) as [A B].
    apply (scalar_read (SBool f) (SBool f')); auto; try reflexivity.
  - refine (own_read done p _ key v _ SDateTime u p' I eq_refl (time_none E key v f) _ H). intros f' Q.
    split; [cbn; tauto|]. split; [discriminate|]. split; [discriminate|]. split; [reflexivity|].
    intros q R Rd. pose proof Rd as (Fr & _). destruct (time_read E loc key v f f' done Q Fr) as [A B].
    apply (scalar_read (SDateTime f) (SDateTime f')); auto; try reflexivity.
  - destruct (String.eqb_spec key "items") as [->|Ni]; [eapply items_step; eauto|].
    refine (own_read done p _ key v _ SArray u p' I eq_refl (fun Q => arr_none E key v f Q Ni) _ H). intros f' Q.
    split; [cbn; tauto|]. split; [discriminate|]. split; [discriminate|]. split; [reflexivity|].
    intros q R (Fr & (m & Gm & Fi) & Tl). destruct (arr_read E loc key v f f' done Q Fr) as (A & B & C & D).
    split; auto. split.
    + exists m. split; auto. rewrite custom_snoc, custom_in, app_nil_r by exact B. exact Fi.
    + intros T. rewrite C. apply field_none; auto. apply String.eqb_neq. auto.
  - destruct (String.eqb_spec key "properties") as [->|Np].
    + destruct (negb _) in H; [discriminate|].
      assert (I0 : inv3 (done ++ [("properties", node_of [])]) p (SObject f)).
      { destruct I as [Ln G0 K Bx Sep (Fr & (m & Gm & Fi) & T1 & T2)]. split; auto. split; [|split].
        - destruct Fr as (F1 & F2 & F3 & F4 & F5). cbn in *. unfold field_as in *. rewrite !last_of_snoc in *.
          cbn [String.eqb Ascii.eqb Bool.eqb] in *. auto.
        - exists m. split; auto. rewrite custom_snoc, custom_in, app_nil_r by reflexivity. exact Fi.
        - unfold plain_properties, pattern_properties in *. rewrite props_node. cbn. rewrite app_nil_r. auto. }
      destruct (properties_read done _ _ _ _ _ _ I0 H) as (f' & I1 & E1). exists (SObject f'). split; [|split; auto].
      eapply same_props; [|exact I1]. now rewrite pairs_node.
    + refine (own_read done p _ key v _ SObject u p' I eq_refl (fun Q => obj_none E key v f Q Np) _ H). intros f' Q.
      assert (F : facets_read E loc (SObject f) done) by apply (i3_read _ _ _ I).
      destruct (obj_read E loc key v f f' done Q F) as (A & B & C & D & _).
      split; [cbn; now rewrite C, D|]. split; [discriminate|].
      split; [intros f0 c Qf; injection Qf as <-; rewrite C, D; now apply (i3_sep _ _ _ I)|]. split; [reflexivity|].
      intros q R (Fr & (m & Gm & Fi) & Tl). split; auto. split.
      * exists m. split; auto. rewrite custom_snoc, custom_in, app_nil_r by exact B. exact Fi.
      * unfold plain_properties, pattern_properties in *. apply String.eqb_neq in Np. rewrite all_snoc, Np, app_nil_r, C, D. exact Tl.
Qed.

Lemma facets_loop : forall l done p sh u p', inv3 done p sh -> facets E rec a loc l p = (Ok u, p') ->
  exists sh', inv3 (done ++ l) p' sh' /\ edit spot n p p' /\ kind_name sh' = kind_name sh.
Proof.
  induction l as [|[k v] l IH]; intros done p sh u p' I H; cbn [facets] in H.
  - apply dret_inv in H. destruct H as [_ ->]. exists sh. rewrite app_nil_r. split; auto. split; auto. apply edit_refl. exact (i3_low _ _ _ I).
  - apply dbind_inv in H. destruct H as (u1 & p1 & H1 & H). destruct (facet_read _ _ _ _ _ _ _ I H1) as (s1 & I1 & E1 & K1).
    destruct (IH _ _ _ _ _ I1 H) as (s2 & I2 & E2 & K2). exists s2. rewrite <- app_assoc in I2. split; auto. split; [eapply edit_trans; eauto|congruence].
Qed.
End Kind.

(** What [concrete] leaves: an unknown kind, or the kind with its facets. *)
Record kinded (m0 : omap gval) (n : nat) (a : addr) (b0 : base) (loc t : string) (fs : option fnodes) (p p' : pst) (sh : shape) : Prop := {
  kd_base : get_base (H_ p') a = Some (set_shape (Some sh) (set_type t b0));
  kd_edit : edit (fun z => z = a \/ z = b_facets b0) n p p';
  kd_box : forall z, boxes sh z -> n <= z < len p';
  kd_shape : (sh = SUnknown /\ builtin t = false /\ facets_of a (p_facets p') = fs /\ get_facets (H_ p') (b_facets b0) = Some m0)
    \/ (sh <> SUnknown /\ t = kind_name sh
        /\ shape_over E m0 p' (st E (fo n (body a (set_shape (Some sh) (set_type t b0))) p') p')
             (match fs with Some l => l | None => [] end) loc True b0 sh);
  kd_known : sh <> SUnknown -> builtin t = true
}.

Lemma empty_kind t s sh s' : empty_shape t s = (Ok sh, s') ->
  (sh = SUnknown /\ builtin t = false /\ s' = s)
  \/ (sh <> SUnknown /\ builtin t = true /\ t = kind_name sh
      /\ (forall m0 loc q R b, get_facets (heap (p_st q)) (b_facets b) = Some m0 -> shape_over E m0 q R [] loc True b sh)
      /\ (s' = s /\ (forall c, ~ boxes sh c) \/ exists x, sh = SUnion x None /\ alloc (CSlice []) s = (Ok x, s'))).
Proof.
  unfold empty_shape. intros H.
  repeat match type of H with (if String.eqb t ?k then _ else _) _ = _ =>
    destruct (String.eqb_spec t k) as [->|?]; [solve [
      (unfold ret in H; injection H as <- <-; right; split; [discriminate|]; split; [reflexivity|]; split; [reflexivity|]; split;
         [intros; split; [cbn; repeat split|split; [eexists; split; [eassumption|intros ?; reflexivity]|cbn; try (intros _); repeat split]]
         |left; split; [reflexivity|]; intros c Q; cbn in Q; destruct Q; discriminate])
      | (unfold ret in H; injection H as <- <-; right; split; [discriminate|]; split; [reflexivity|]; split; [reflexivity|]; split;
         [intros; split; [cbn; repeat split; discriminate|split; [eexists; split; [eassumption|intros ?; reflexivity]|cbn; try (intros _); repeat split]]
         |left; split; [reflexivity|]; intros c Q; cbn in Q; tauto])
      | (apply bind_inv in H; destruct H as (x & s1 & H1 & H); unfold ret in H; injection H as <- <-; right; split; [discriminate|];
         split; [reflexivity|]; split; [reflexivity|]; split; [intros; split; [exact I|split; [eexists; split; [eassumption|intros ?; reflexivity]|exact I]]|]; right; eauto)]|] end.
  unfold ret in H. injection H as <- <-. left. split; auto. split; auto. unfold builtin. cbn [existsb].
  repeat match goal with N : t <> ?k |- _ => apply String.eqb_neq in N; rewrite ?N; clear N end. reflexivity.
Qed.

Lemma put_facets_edit a fs p u p' (W : addr -> Prop) n : put_facets a fs p = (Ok u, p') -> n <= len p -> W a ->
  edit W n p p' /\ p_st p' = p_st p /\ facets_of a (p_facets p') = fs.
Proof.
  unfold put_facets. intros H L Wa. injection H as _ <-. cbn. rewrite Nat.eqb_refl. split; auto. split; auto.
  - intros z _ N. cbn. destruct (Nat.eqb_spec z a) as [->|]; [contradiction|reflexivity].
  - exists []. cbn. now rewrite app_nil_r.
  - now apply stays_same.
Qed.

Lemma concrete_read m0 a loc t fs p u p' b : get_base (H_ p) a = Some b -> get_facets (H_ p) (b_facets b) = Some m0 ->
  b_fdefs b < len p -> b_inherits b < len p -> concrete E rec a loc t fs p = (Ok u, p') ->
  exists sh, kinded m0 (len p) a b loc t fs p p' sh.
Proof.
  intros G Gf Ld Li H. unfold concrete in H.
  assert (La : a < len p) by (exact (base_lt _ _ _ G)).
  assert (Lf : b_facets b < len p) by (apply get_facets_nth in Gf; eapply nth_error_lt; exact Gf).
  assert (Naf : b_facets b <> a).
  { intros Q. rewrite Q in Gf. apply get_base_nth in G. unfold get_facets in Gf. rewrite G in Gf. discriminate. }
  apply dbind_inv in H. destruct H as (u1 & p1 & H1 & H). destruct (upd_change _ _ _ _ _ H1 (fun _ _ => eq_refl)) as (b1 & Gb & C1 & G1).
  rewrite G in Gb. injection Gb as <-. pose proof (c_len _ _ _ _ C1) as L1.
  apply dbind_inv in H. destruct H as (sh & p2 & H2 & H).
  apply hp_ok in H2. destruct H2 as (s2 & H2 & ->). apply dbind_inv in H. destruct H as (u3 & p3 & H3 & H).
  destruct (upd_change _ _ _ _ _ H3 (fun _ _ => eq_refl)) as (b2 & Gb2 & C3 & G3). pose proof (c_len _ _ _ _ C3) as L3.
  set (p2 := with_st p1 s2) in *.
  pose proof (empty_kind _ _ _ _ H2) as Ek.
  assert (A2 : app p1 p2).
  { destruct Ek as [(_ & _ & ->)|(_ & _ & _ & _ & [[-> _]|(x & _ & Al)])].
    - assert (Q : p2 = p1) by (unfold p2; destruct p1; reflexivity). rewrite Q. apply app_refl.
    - assert (Q : p2 = p1) by (unfold p2; destruct p1; reflexivity). rewrite Q. apply app_refl.
    - assert (X : hp (alloc (CSlice [])) p1 = (Ok x, p2)) by (unfold hp; rewrite Al; reflexivity). destruct (alloc_app _ _ _ _ X) as (_ & _ & A & _). exact A. }
  pose proof (app_len _ _ A2) as L2.
  pose proof (app_base _ _ _ _ A2 G1) as G2. rewrite G2 in Gb2. injection Gb2 as <-.
  assert (Ed : edit (fun z => z = a \/ z = b_facets b) (len p) p p3).
  { eapply edit_trans; [apply (change_edit _ _ a _ _ _ C1); auto|]. eapply edit_trans; [apply app_edit; [lia|exact A2]|].
    apply (change_edit _ _ a _ _ _ C3); auto. lia. }
  assert (Gf3 : get_facets (H_ p3) (b_facets b) = Some m0).
  { rewrite <- Gf. apply get_facets_same. rewrite (c_old _ _ _ _ C3) by auto. rewrite (e_cells _ _ _ _ A2) by (try lia; intros []). apply (c_old _ _ _ _ C1). auto. }
  destruct Ek as [(-> & Bt & _)|(Ns & Bt & Kt & Sr & Bx)].
  - exists SUnknown. destruct (put_facets_edit _ _ _ _ _ (fun z => z = a \/ z = b_facets b) (len p) H) as (E4 & S4 & F4); [lia|auto|].
    assert (Hs : H_ p' = H_ p3) by (unfold H_; now rewrite S4).
    split.
    + rewrite Hs. exact G3.
    + eapply edit_trans; eauto.
    + intros z [].
    + left. rewrite Hs. auto.
    + congruence.
  - assert (Bx3 : forall z, boxes sh z -> len p <= z < len p3).
    { intros z Q. destruct Bx as [[_ N]|(x & -> & Al)]; [destruct (N _ Q)|]. cbn in Q. subst z.
      assert (X : hp (alloc (CSlice [])) p1 = (Ok x, p2)) by (unfold hp; rewrite Al; reflexivity). destruct (alloc_app _ _ _ _ X) as (Qx & Lx & _). lia. }
    assert (Sep : forall f c, sh = SObject f -> o_props f = Some c -> o_pprops f <> Some c).
    { intros f c -> Q. destruct Bx as [[_ N]|(x & Q' & _)]; [|discriminate]. destruct (N c). cbn. auto. }
    assert (I0 : inv3 (len p) a (set_type t b) loc m0 [] p3 sh).
    { split; auto; try lia. }
    assert (H' : facets E rec a loc (match fs with Some l => l | None => [] end) p3 = (Ok u, p')) by (destruct sh; auto; contradiction).
    destruct (facets_loop (len p) a (set_type t b) loc m0 La Lf Ld Li Naf _ [] p3 sh u p' I0 H') as (sh' & I1 & E1 & K1).
    exists sh'. destruct I1 as [Ln1 B1 N1 X1 S1 R1]. split; auto.
    + eapply edit_trans; eauto.
    + right. split; auto. split; [congruence|]. exact R1.
Qed.

(** * A declaration *)

Definition own_of (kvs : list (string * ynode)) : list (string * ynode) :=
  filter (fun kv => negb (String.eqb (fst kv) "type" || existsb (String.eqb (fst kv)) documentation || is_annotation (fst kv))) kvs.

Lemma entries_read a loc n name : forall l kvs t fs p b r p', inv1 E n a name loc kvs p b -> n <= len p ->
  t = last_of "type" kvs -> fs = own_of kvs -> decode_entries E inc_ne rec a loc l t fs p = (Ok r, p') ->
  (exists b', inv1 E n a name loc (kvs ++ pairs l) p' b') /\ grew n p p'
  /\ r = (last_of "type" (kvs ++ pairs l), own_of (kvs ++ pairs l)).
Proof.
  induction l as [|k|k v l IH] using pair_induction; intros kvs t fs p b r p' I Ln -> -> H; cbn [decode_entries] in H.
  - apply dret_inv in H. destruct H as [-> ->]. cbn. rewrite app_nil_r. split; [eauto|]. split; auto. now apply edit_refl.
  - discriminate.
  - cbn [pairs]. change ((y_value k, v) :: pairs l) with ([(y_value k, v)] ++ pairs l). rewrite app_assoc.
    assert (Own : own_of (kvs ++ [(y_value k, v)]) = own_of kvs ++ own_of [(y_value k, v)]) by (unfold own_of; apply filter_app).
    destruct (String.eqb_spec (y_value k) "type") as [Qt|Nt].
    + rewrite Qt in *. apply (IH (kvs ++ [("type", v)]) _ _ p b r p') in H; auto.
      * destruct I as [B Na O Dc S K C Ih]. split; auto. now apply doc_skip.
      * rewrite last_of_snoc. reflexivity.
      * rewrite Own. cbn. now rewrite app_nil_r.
    + assert (Lt : last_of "type" kvs = last_of "type" (kvs ++ [(y_value k, v)])).
      { rewrite last_of_snoc. destruct (String.eqb_spec "type" (y_value k)); congruence. }
      destruct (known_key (y_value k)) eqn:Kk.
      * apply dbind_inv in H. destruct H as (u & p1 & H1 & H).
        destruct (entry_read E inc_ne rec Ine Rec a loc _ v n name kvs p b u p1 I Ln Kk H1) as [(b1 & I1) G1].
        apply (IH (kvs ++ [(y_value k, v)]) _ _ p1 b1 r p') in H; auto.
        -- destruct H as (X & Y & Z). split; auto. split; auto. eapply grew_trans; eauto.
        -- pose proof (e_len _ _ _ _ G1). lia.
        -- rewrite Own. unfold own_of at 3. cbn [filter fst]. unfold known_key in Kk. fold documentation in Kk. rewrite <- orb_assoc, Kk, orb_true_r. cbn. now rewrite app_nil_r.
      * assert (Kk' := Kk). unfold known_key in Kk'. fold documentation in Kk'. apply orb_false_iff in Kk'. destruct Kk' as [K1 K2].
        apply (IH (kvs ++ [(y_value k, v)]) _ _ p b r p') in H; auto.
        -- destruct I as [B Na O Dc S K C Ih]. split; auto. now apply doc_skip.
        -- rewrite Own. unfold own_of at 3. cbn [filter fst]. apply String.eqb_neq in Nt. rewrite Nt, K1, K2. reflexivity.
Qed.

Definition kept_facets (v : ynode) : option fnodes := match y_kind v with KMap => Some (own_facets v) | _ => None end.
Lemma kept_own v : match kept_facets v with Some l => l | None => [] end = own_facets v.
Proof. unfold kept_facets, own_facets, entries. destruct (y_kind v); reflexivity. Qed.

Lemma decode_read a loc v n name p b r p' : inv1 E n a name loc [] p b -> n <= len p -> decode E inc_ne rec a loc v p = (Ok r, p') ->
  (exists b', inv1 E n a name loc (entries v) p' b') /\ grew n p p' /\ r = (type_node v, kept_facets v).
Proof.
  intros I Ln H. unfold decode in H. unfold entries, type_node, kept_facets, own_facets, entries. destruct (y_kind v) eqn:K; try discriminate.
  - apply dret_inv in H. destruct H as [-> ->]. split; [eauto|]. split; auto. now apply edit_refl.
  - apply dbind_inv in H. destruct H as (r1 & p1 & H1 & H). apply dret_inv in H. destruct H as [-> ->].
    destruct (entries_read a loc n name _ [] None [] p b r1 p1 I Ln eq_refl eq_refl H1) as (X & Y & ->). split; auto.
  - apply dret_inv in H. destruct H as [-> ->]. split; [eauto|]. split; auto. now apply edit_refl.
Qed.

Lemma parents_list name loc : forall l p xs p', parents rec name loc l p = (Ok xs, p') ->
  app p p' /\ Forall2 (fun n y => st E (span (len p) (len p')) p' n name loc y) l xs.
Proof.
  induction l as [|v l IH]; intros p xs p' H; cbn [parents] in H.
  - apply dret_inv in H. destruct H as [-> ->]. split; [apply app_refl|constructor].
  - destruct (y_kind v); try discriminate. destruct (String.eqb _ _) in H; [discriminate|].
    apply dbind_inv in H. destruct H as (x & p1 & H1 & H). destruct (Rec _ _ _ _ _ _ H1) as [A1 S1].
    apply dbind_inv in H. destruct H as (ys & p2 & H2 & H). destruct (IH _ _ _ H2) as [A2 F2].
    apply dret_inv in H. destruct H as [-> ->]. pose proof (app_len _ _ A1). pose proof (app_len _ _ A2). split; [eapply app_trans; eauto|]. constructor.
    + assert (C : carries (st E (span (len p) (len p1)) p1) (st E (span (len p) (len p2)) p2) p1 p2).
      { apply st_carry; [apply (inside_edit _ none (len p1)); auto; intros z [_ L]; auto|]. intros z [X Y]. split; lia. }
      apply (C _ _ _ _ S1).
    + clear - F2 H. induction F2 as [|n y ns ys Q F IH]; constructor; auto. eapply st_wide; [|exact Q]. intros z [X Y]. split; lia.
Qed.

(** A kind that is left open. *)
Definition opened (v : ynode) (t : string) (p : pst) (b : base) : Prop :=
  vague v /\ (b_link b = None -> t <> "composite" -> type_text v t)
  /\ (forall tx, type_text v tx -> b_link b = None /\ t = tx /\ get_slice (H_ p) (b_inherits b) = Some [])
  /\ (forall t0, type_node v = Some t0 -> (y_kind t0 = KScalar -> y_tag t0 <> "!!str" -> b_link b <> None)
        /\ (y_kind t0 = KSeq -> b_link b = None /\ t = "composite"))
  /\ (forall t0, type_node v = Some t0 -> y_kind t0 = KScalar -> y_tag t0 = "!include" ->
        exists l, b_link b = Some l /\ from p (e_join (d_y E) (b_loc b) (y_value t0)) l).

Record inv2 (n : nat) (a : addr) (v : ynode) (name loc : string) (t : string) (p : pst) (b : base) : Prop := {
  i2_base : get_base (H_ p) a = Some b;
  i2_a : n <= a;
  i2_own : forall c, owns b c -> n <= c < len p;
  i2_doc : documented E p (st E (fo n (body a b) p) p) (entries v) name loc b;
  i2_parents : parents_read p (st E (fo n (body a b) p) p) v name loc b;
  i2_custom : get_facets (H_ p) (b_facets b) = Some [];
  i2_open : builtin t = false -> opened v t p b;
  i2_shut : builtin t = true -> ~ vague v
}.

Lemma inferred_builtin l t : inferred l t -> builtin t = true.
Proof. unfold inferred. intros [[-> _]|[[-> _]|[[-> _]|[[-> _]|[-> _]]]]]; reflexivity. Qed.

Lemma parents_none p R v name loc b : (forall t, type_node v = Some t -> y_kind t <> KSeq) ->
  (by_itself v -> (b_link b = None /\ b_alias b = None) /\ get_slice (H_ p) (b_inherits b) = Some []) -> parents_read p R v name loc b.
Proof. intros N B. split; [intros t T K; destruct (N t T K)|]. intros Y. destruct (B Y) as ((B1 & B2) & B3). auto. Qed.

Lemma inv1_inv2 n a v name loc t p b : inv1 E n a name loc (entries v) p b -> (forall t, type_node v = Some t -> y_kind t <> KSeq) ->
  (forall sh, t = kind_name sh -> kind_read E v (set_shape (Some sh) (set_type t b))) ->
  (builtin t = false -> opened v t p b) -> (builtin t = true -> ~ vague v) ->
  inv2 n a v name loc t p b /\ forall sh, t = kind_name sh -> kind_read E v (set_shape (Some sh) (set_type t b)).
Proof. intros [B Na O Dc S K C Ih] Ns Kn Op Sh. split; auto. split; auto. apply parents_none; auto. Qed.


Lemma not_vague v t : type_node v = Some t -> y_kind t = KScalar ->
  y_tag t = "!!null" \/ (y_tag t = "!!str" /\ (y_value t = "" \/ (exists s, y_value t = String "{" s) \/ builtin (y_value t) = true)) -> ~ vague v.
Proof.
  intros T K H (t0 & T0 & V). rewrite T in T0. injection T0 as <-. destruct (V K) as [N S].
  destruct H as [H|[H [Q|[[s Q]|Q]]]]; [contradiction| | |]; destruct (S H) as (A & B & C); [contradiction|now apply (B s)|congruence].
Qed.
Lemma text_fun v t n : type_text v t -> type_node v = Some n -> y_kind n = KScalar /\ y_tag n = "!!str" /\ y_value n = t.
Proof. intros (m & T & A) N. rewrite T in N. injection N as <-. exact A. Qed.

Lemma fo_span n X p z : fo n X p z -> span n (len p) z.
Proof. intros [A _]. exact A. Qed.

Lemma finish n a v name loc t p b p' sh : inv2 n a v name loc t p b -> n <= len p ->
  (t = kind_name sh -> kind_read E v (set_shape (Some sh) (set_type t b))) -> kinded [] (len p) a b loc t (kept_facets v) p p' sh ->
  st E (span n (len p')) p' v name loc a /\ grew n p p'.
Proof.
  intros [G Na Ow Do Pa Cu Op Cl] Ln Kn [Gb Ed Bx Ks Bk]. pose proof (e_len _ _ _ _ Ed) as L. assert (La : a < len p) by exact (base_lt _ _ _ G).
  assert (Lf : n <= b_facets b < len p) by (apply Ow; constructor).
  set (W := fun z => z = a \/ z = b_facets b) in *. set (b' := set_shape (Some sh) (set_type t b)) in *.
  assert (Cr : carries (st E (fo n (body a b) p) p) (st E (span n (len p')) p') p p').
  { apply st_carry.
    - apply (inside_edit _ W (len p)); auto. intros z [[_ Lz] Nb]. split; auto. intros [->| ->]; apply Nb; [now left|right; constructor].
    - intros z [[A B] _]. split; lia. }
  assert (Ob : forall c, owns b' c -> n <= c < len p').
  { intros c O. apply owns_shape in O. destruct O as [->|[->|[->|O]]].
    - specialize (Ow _ (ow_facets b)). cbn. lia.
    - specialize (Ow _ (ow_fdefs b)). cbn. lia.
    - specialize (Ow _ (ow_inherits b)). cbn. lia.
    - specialize (Bx _ O). lia. }
  split; [|unfold grew; eapply edit_weak; [| |exact Ed]; [lia|]; intros z Lz [->| ->]; lia].
  apply st_fold. exists b'. split; [exact Gb|]. split; [|split; [|split]].
  - refine (documented_move E _ _ p p' _ _ _ b b' Cr _ _ _ Do).
    + apply annots_app. exact (e_exts _ _ _ _ Ed).
    + split; reflexivity.
    + intros m Gm. rewrite <- Gm. apply get_props_same. apply (e_cells _ _ _ _ Ed).
      * apply get_props_nth in Gm. eapply nth_error_lt; exact Gm.
      * intros [Q|Q]; rewrite Q in Gm.
        -- apply get_base_nth in G. unfold get_props in Gm. rewrite G in Gm. discriminate.
        -- apply get_facets_nth in Cu. unfold get_props in Gm. rewrite Cu in Gm. discriminate.
  - assert (Sl : forall l, get_slice (H_ p) (b_inherits b) = Some l -> get_slice (H_ p') (b_inherits b') = Some l).
    { intros l Gl. rewrite <- Gl. apply get_slice_same. apply (e_cells _ _ _ _ Ed).
      - apply get_slice_nth in Gl. eapply nth_error_lt; exact Gl.
      - cbn. intros [Q|Q]; rewrite Q in Gl.
        + apply get_base_nth in G. unfold get_slice in Gl. rewrite G in Gl. discriminate.
        + apply get_facets_nth in Cu. unfold get_slice in Gl. rewrite Cu in Gl. discriminate. }
    refine (parents_move _ _ p p' _ _ _ b b' Cr (fun l _ _ _ => Sl l) (fun _ => conj eq_refl (conj eq_refl (Sl []))) Pa).
  - split; [split; lia|]. intros c O. specialize (Ob c O). split; lia.
  - destruct Ks as [(-> & Bt & Fo & Gc)|(Ns & Kt & Sr)].
    + right. destruct (Op Bt) as (Va & Tx & Ex & Ot & Oi). split; auto; [|intros t0 T0 K0 I0; destruct (Oi t0 T0 K0 I0) as (l & Lk & Fr); exists l; split; [exact Lk|exact (from_stays _ _ _ _ (e_stays _ _ _ _ Ed) Fr)]]. intros tx Ty. destruct (Ex tx Ty) as (Q1 & Q2 & Gl). split; auto. split; auto.
      rewrite <- Gl. cbn. apply get_slice_same. apply (e_cells _ _ _ _ Ed).
      * apply get_slice_nth in Gl. eapply nth_error_lt; exact Gl.
      * intros [Q|Q]; rewrite Q in Gl.
        -- apply get_base_nth in G. unfold get_slice in Gl. rewrite G in Gl. discriminate.
        -- apply get_facets_nth in Cu. unfold get_slice in Gl. rewrite Cu in Gl. discriminate.
    + left. split; [intros [Q|Q]; cbn in Q; congruence|]. split; [|intros Vv; destruct (Cl (Bk Ns) Vv)]. intros _. split; [now apply Kn|]. exists sh. split; auto. split; auto. split; [exact Kt|].
      rewrite kept_own in Sr.
      refine (shape_read_move E _ _ p' p' _ _ _ _ b b' sh _ (fun _ => I) eq_refl (fun _ g => g) (fun _ _ _ g => g) Sr).
      intros v0 n0 l0 x Q. split; [|eauto]. eapply st_wide; [|exact Q]. intros z [[A B] _]. split; lia.
Qed.

Lemma shape_type_read n a v name loc t p b ty p' : inv1 E n a name loc (entries v) p b -> n <= len p -> type_node v = Some t ->
  shape_type E inc_dt rec a name loc t (kept_facets v) p = (Ok ty, p') ->
  grew n p p' /\ match ty with
                 | Some t' => exists b', inv2 n a v name loc t' p' b' /\ forall sh, t' = kind_name sh -> kind_read E v (set_shape (Some sh) (set_type t' b'))
                 | None => st E (span n (len p')) p' v name loc a
                 end.
Proof.
  intros I Ln Tn H. unfold shape_type in H. destruct (y_kind t) eqn:K; try discriminate.
  all: swap 1 2.
  - (* a scalar *)
    assert (Ns : forall t0, type_node v = Some t0 -> y_kind t0 <> KSeq) by (intros t0 Q; rewrite Tn in Q; injection Q as <-; congruence).
    destruct (String.eqb_spec (y_tag t) "!!str") as [Ts|Nt].
    + destruct (y_value t) as [|c s] eqn:Vt.
      * apply dbind_inv in H. destruct H as (ty' & p1 & H1 & H). apply dlift_inv in H1. destruct H1 as [Id ->].
        apply dret_inv in H. destruct H as [-> ->]. unfold identify in Id. rewrite kept_own in Id. apply Names_proofs.identify_iff in Id.
        split; [now apply edit_refl|]. exists b. apply inv1_inv2; auto.
        -- intros sh Q. unfold kind_read. rewrite Tn, K. split; [congruence|]. intros _. rewrite Vt. split; auto. split; [discriminate|].
           intros B. discriminate B.
        -- apply inferred_builtin in Id. congruence.
        -- intros _. apply (not_vague v t); auto.
      * destruct (Ascii.eqb_spec c "{"%char) as [->|Nc].
        -- (* JSON *)
           apply dbind_inv in H. destruct H as (u1 & p1 & H1 & H). destruct (upd_change _ _ _ _ _ H1 (fun _ _ => eq_refl)) as (b1 & Gb & C1 & G1).
           pose proof I as [G Na Ow Do Sh Lk Cu Ih]. rewrite G in Gb. injection Gb as <-.
           destruct (d_schema E (String "{" s)) eqn:Ds; [|discriminate]. apply dbind_inv in H. destruct H as (u2 & p2 & H2 & H).
           apply dret_inv in H. destruct H as [-> ->]. destruct (upd_change _ _ _ _ _ H2 (fun _ _ => eq_refl)) as (b2 & Gb & C2 & G2). rewrite G1 in Gb. injection Gb as <-.
           pose proof (c_len _ _ _ _ C1) as L1. pose proof (c_len _ _ _ _ C2) as L2. pose proof (base_lt _ _ _ G) as La.
           assert (K' : kinded [] (len p) a b loc "json" (kept_facets v) p p2 (SJSON (String "{" s))).
           { split; auto.
             - eapply edit_trans; [apply (change_edit _ _ a _ _ _ C1); auto|]. apply (change_edit _ _ a _ _ _ C2); auto. lia.
             - intros z [].
             - right. split; [discriminate|]. split; auto. split; [exact Logic.I|]. split; [|exact Logic.I]. exists []. split; [|intros ?; reflexivity].
               transitivity (get_facets (H_ p) (b_facets b)); [|exact Cu]. apply get_facets_same. fold (H_ p2). rewrite (c_old _ _ _ _ C2), (c_old _ _ _ _ C1); auto;
                 intros Q; rewrite Q in Cu; apply get_base_nth in G; unfold get_facets in Cu; rewrite G in Cu; discriminate. }
           assert (Sp : st E (span n (len p2)) p2 v name loc a /\ grew n p p2).
           { (* the kind is said by the text itself *)
             assert (I2 : inv2 n a v name loc "json" p b).
             { split; auto; [apply parents_none; auto|discriminate|]. intros _. apply (not_vague v t); auto. right. split; auto. right. left. rewrite Vt. eauto. }
             refine (finish _ _ _ _ _ _ _ _ _ _ I2 Ln _ K'). intros _. unfold kind_read. rewrite Tn, K. split; [congruence|]. intros _. rewrite Vt.
             split; [discriminate|]. split; [intros ? _; split; [reflexivity|exact Ds]|]. intros Q. discriminate Q. }
           destruct Sp. auto.
        -- apply dret_inv in H. destruct H as [-> ->]. split; [now apply edit_refl|]. exists b. apply inv1_inv2; auto.
           ++ intros sh Q. unfold kind_read. rewrite Tn, K. split; [congruence|]. intros _. rewrite Vt. split; [discriminate|]. split; [|auto].
              intros s0 Q0. congruence.
           ++ intros Bt. split; [|split; [|split; [|split]]].
              ** exists t. split; auto. intros _. split; [congruence|]. intros _. rewrite Vt. split; [discriminate|]. split; [congruence|auto].
              ** intros _ _. exists t. auto.
              ** intros tx Tx. destruct (text_fun _ _ _ Tx Tn) as (_ & _ & <-). split; [exact (proj1 (i1_link _ _ _ _ _ _ _ _ I))|]. split; auto. exact (i1_inh _ _ _ _ _ _ _ _ I).
              ** intros t0 Q. rewrite Tn in Q. injection Q as <-. split; congruence.
              ** intros t0 Q. rewrite Tn in Q. injection Q as <-. congruence.
           ++ intros Bt. apply (not_vague v t); auto. right. rewrite Vt. auto.
    + destruct (String.eqb_spec (y_tag t) "!include") as [Ti|Ni].
      * apply dbind_inv in H. destruct H as (l & p1 & H1 & H). destruct (Idt _ _ _ _ H1) as [A Fr]. pose proof (app_len _ _ A) as L.
        pose proof (inv1_app E _ _ _ _ _ _ _ _ I A) as I1. apply dbind_inv in H. destruct H as (u & p2 & H2 & H).
        apply dret_inv in H. destruct H as [-> ->]. destruct (upd_change _ _ _ _ _ H2 (fun _ _ => eq_refl)) as (b1 & Gb & C & G2).
        pose proof I1 as [G Na Ow Do Sh Lk Cu Ih]. rewrite G in Gb. injection Gb as <-. pose proof (c_len _ _ _ _ C) as L2.
        set (b2 := set_link (Some l) b) in *.
        assert (Ed : edit (eq a) (len p1) p1 p2) by (apply (change_edit _ _ a _ _ _ C); auto).
        assert (Ne : forall c, nth_error (H_ p1) c <> Some (CBase b) -> nth_error (H_ p2) c = nth_error (H_ p1) c).
        { intros c N. apply (c_old _ _ _ _ C). intros ->. apply N. now apply get_base_nth. }
        assert (SO : forall c, owns b c <-> owns b2 c) by (intros c; now apply same_owns).
        split.
        { eapply grew_trans; [apply grew_app; [|exact A]; auto|]. eapply edit_weak; [| |exact Ed]; [lia|]. intros z Lz <-. lia. }
        exists b2. split; [split; auto|].
        -- intros c O. apply SO in O. specialize (Ow c O). lia.
        -- refine (documented_move E _ _ p1 p2 _ _ _ b b2 (fo_carry E n _ _ (eq a) p1 p2 Ed _ _) _ _ _ Do).
           ++ intros z <-. now left.
           ++ intros z _ [->|O]; [now left|]. right. now apply SO.
           ++ apply annots_app. exact (e_exts _ _ _ _ Ed).
           ++ split; reflexivity.
           ++ intros m Gm. rewrite <- Gm. apply get_props_same. apply Ne. intros Q. unfold get_props in Gm. rewrite Q in Gm. discriminate.
        -- apply parents_none; auto. intros B. exfalso. unfold by_itself in B. rewrite Tn in B. destruct B as (_ & [B|(B & _)]); congruence.
        -- cbn. rewrite <- Cu. apply get_facets_same. apply Ne. intros Q. unfold get_facets in Cu. rewrite Q in Cu. discriminate.
        -- intros _. split; [|split; [discriminate|split; [|split]]].
           ++ exists t. split; auto. intros _. split; congruence.
           ++ intros tx Tx. destruct (text_fun _ _ _ Tx Tn) as (_ & Q & _). contradiction.
           ++ intros t0 Q. rewrite Tn in Q. injection Q as <-. split; [discriminate|congruence].
           ++ intros t0 Q _ _. rewrite Tn in Q. injection Q as <-. exists l. split; [reflexivity|]. apply (from_stays p1 p2); [exact (e_stays _ _ _ _ Ed)|].
              replace (b_loc b2) with loc; [exact Fr|]. symmetry. exact (dc_loc _ _ _ _ _ _ _ Do).
        -- discriminate.
        -- intros sh Q. unfold kind_read. rewrite Tn, K. split; congruence.
      * destruct (String.eqb_spec (y_tag t) "!!null") as [Tl|Nl]; [|discriminate].
        apply dret_inv in H. destruct H as [-> ->]. split; [now apply edit_refl|]. exists b. apply inv1_inv2; auto; try discriminate.
        { intros sh Q. unfold kind_read. rewrite Tn, K. split; [auto|]. congruence. }
        intros _. apply (not_vague v t); auto.
  - (* a list *)
    apply dbind_inv in H. destruct H as (l & p1 & H1 & H). destruct (parents_list _ _ _ _ _ _ H1) as [A Fa]. pose proof (app_len _ _ A) as L.
    pose proof (inv1_app E _ _ _ _ _ _ _ _ I A) as I1. apply dbind_inv in H. destruct H as (sl & p2 & H2 & H).
    destruct (alloc_app _ _ _ _ H2) as (Qs & L2 & A2 & N2 & _ & _). pose proof (inv1_app E _ _ _ _ _ _ _ _ I1 A2) as I2.
    apply dbind_inv in H. destruct H as (u & p3 & H3 & H). apply dret_inv in H. destruct H as [-> ->].
    destruct (upd_change _ _ _ _ _ H3 (fun _ _ => eq_refl)) as (b1 & Gb & C & G3). pose proof I2 as [G Na Ow Do Sh Lk Cu Ih]. rewrite G in Gb. injection Gb as <-.
    pose proof (c_len _ _ _ _ C) as L3. pose proof (inv1_lt E _ _ _ _ _ _ _ I) as La. set (b2 := set_inherits sl b) in *.
    assert (Ed : edit (eq a) (len p2) p2 p3) by (apply (change_edit _ _ a _ _ _ C); auto).
    assert (Ed1 : edit (eq a) (len p1) p1 p3).
    { eapply edit_trans; [apply app_edit; [|exact A2]; auto|]. eapply edit_weak; [| |exact Ed]; [lia|]. auto. }
    assert (Ne : forall c, nth_error (H_ p2) c <> Some (CBase b) -> nth_error (H_ p3) c = nth_error (H_ p2) c).
    { intros c N. apply (c_old _ _ _ _ C). intros ->. apply N. now apply get_base_nth. }
    assert (SO : forall c, owns b2 c -> owns b c \/ c = sl).
    { intros c O. destruct O; cbn in *; auto; left; [constructor|constructor|eapply ow_props; eauto|eapply ow_pprops; eauto|eapply ow_anyof; eauto]. }
    split.
    { eapply grew_trans; [apply grew_app; [|exact A]; auto|]. eapply grew_trans; [apply grew_app; [|exact A2]; lia|].
      eapply edit_weak; [| |exact Ed]; [lia|]. intros z Lz <-. lia. }
    exists b2.
    assert (Lb : forall z, body a b2 z -> z < len p \/ z = sl).
    { intros z [->|O]; [auto|]. destruct (SO _ O) as [O'|]; auto. left. exact (proj2 (i1_own E _ _ _ _ _ _ _ I z O')). }
    split; [split; auto|].
    + intros c O. destruct (SO _ O) as [O'| ->]; [specialize (Ow c O'); lia|lia].
    + pose proof I1 as [G1 _ Ow1 Do1 _ _ _ _].
      refine (documented_move E _ _ p1 p3 _ _ _ b b2 (fo_carry E n _ _ (eq a) p1 p3 Ed1 _ _) _ _ _ Do1).
      * intros z <-. now left.
      * intros z Lz [->|O]; [now left|]. destruct (SO _ O) as [O'| ->]; [now right|lia].
      * apply annots_app. exact (e_exts _ _ _ _ Ed1).
      * split; reflexivity.
      * intros m Gm. rewrite <- Gm. apply get_props_same. apply (e_cells _ _ _ _ Ed1).
        -- apply get_props_nth in Gm. eapply nth_error_lt; exact Gm.
        -- intros Q. rewrite <- Q in Gm. apply get_base_nth in G1. unfold get_props in Gm. rewrite G1 in Gm. discriminate.
    + split; [|intros B; exfalso; unfold by_itself in B; rewrite Tn in B; destruct B; congruence].
      intros t0 Q Kq. rewrite Tn in Q. injection Q as <-. exists l. split.
      * cbn. apply get_slice_nth. fold (H_ p3). rewrite (c_old _ _ _ _ C) by lia. exact N2.
      * assert (Cr : carries (st E (span (len p) (len p1)) p1) (st E (fo n (body a b2) p3) p3) p1 p3).
        { apply st_carry.
          - apply (inside_edit _ (eq a) (len p1)); auto. intros z [X Y]. split; auto. intros <-. lia.
          - intros z [X Y]. split; [lia|]. intros Q. destruct (Lb _ Q) as [|Q']; lia. }
        clear - Fa Cr. induction Fa as [|x y xs ys Q F IH]; constructor; auto. now apply (Cr _ _ _ _ Q).
    + cbn. rewrite <- Cu. apply get_facets_same. apply Ne. intros Q. unfold get_facets in Cu. rewrite Q in Cu. discriminate.
    + intros _. split; [|split; [congruence|split; [|split]]].
      * exists t. split; auto. congruence.
      * intros tx Tx. destruct (text_fun _ _ _ Tx Tn) as (Q & _). congruence.
      * intros t0 Q. rewrite Tn in Q. injection Q as <-. split; [congruence|]. intros _. split; [exact (proj1 Lk)|reflexivity].
      * intros t0 Q. rewrite Tn in Q. injection Q as <-. congruence.
    + discriminate.
    + intros sh Q. unfold kind_read. rewrite Tn, K. exact Logic.I.
Qed.

Lemma make_base_read name loc p a p' : hp (make_base name loc) p = (Ok a, p') -> app p p' /\ exists b, inv1 E (len p) a name loc [] p' b.
Proof.
  intros H. apply hp_ok in H. destruct H as (s' & H & ->). unfold make_base, gen_id, alloc, put_shape, ret, bind in H. cbn in H. injection H as <- <-.
  set (h := heap (p_st p)). repeat rewrite <- app_assoc. cbn [List.app]. repeat rewrite app_length. cbn [List.length].
  assert (Ln : len p = List.length h) by reflexivity.
  match goal with |- app p ?q /\ _ => set (p' := q) end.
  match goal with p' := with_st p (St (h ++ [CFacets []; CProps []; CSlice []; CBase ?nb]) _ _) |- _ => set (b := nb) in * end.
  assert (Hp : H_ p' = h ++ [CFacets []; CProps []; CSlice []; CBase b]) by reflexivity.
  assert (Lp : len p' = len p + 4) by (unfold len; rewrite Hp, app_length; reflexivity).
  assert (Nf : forall i, nth_error (H_ p') (len p + i) = nth_error [CFacets []; CProps []; CSlice []; CBase b] i).
  { intros i. rewrite Hp, Ln, nth_error_app2 by lia. f_equal. lia. }
  split.
  - split; auto; try lia.
    + intros z Lz _. rewrite Hp, nth_error_app1 by (rewrite <- Ln; exact Lz). reflexivity.
    + exists []. cbn. now rewrite app_nil_r.
    + apply stays_cells; [reflexivity|]. intros z Lz. rewrite Hp, nth_error_app1 by (rewrite <- Ln; exact Lz). reflexivity.
  - exists b. rewrite <- Ln. split.
    + apply get_base_nth. replace (len p + 1 + 1 + 1) with (len p + 3) by lia. exact (Nf 3).
    + lia.
    + intros c O. destruct O as [| | |f m S|f m S|sl e S]; try discriminate S; rewrite Lp; cbn [b b_facets b_fdefs b_inherits]; rewrite ?Ln; lia.
    + split; try reflexivity; try constructor; try reflexivity. exists []. split; [|constructor]. apply get_props_nth. cbn [b b_fdefs]. rewrite <- Ln. exact (Nf 1).
    + reflexivity.
    + split; reflexivity.
    + apply get_facets_nth. cbn [b b_facets]. replace (List.length h) with (len p + 0) by lia. exact (Nf 0).
    + apply get_slice_nth. cbn [b b_inherits]. rewrite <- Ln. replace (len p + 1 + 1) with (len p + 2) by lia. exact (Nf 2).
Qed.

Lemma new_shape_read v name loc p x p' : new_shape E inc_dt inc_ne rec v name loc p = (Ok x, p') ->
  app p p' /\ st E (span (len p) (len p')) p' v name loc x.
Proof.
  intros H. unfold new_shape in H. apply dbind_inv in H. destruct H as (a & p1 & H1 & H). destruct (make_base_read _ _ _ _ _ H1) as [A1 (b1 & I1)].
  pose proof (app_len _ _ A1) as L1. apply dbind_inv in H. destruct H as (tf & p2 & H2 & H).
  destruct (decode_read _ _ _ _ _ _ _ _ _ I1 L1 H2) as [(b2 & I2) [G2 ->]]. pose proof (e_len _ _ _ _ G2) as L2. cbn [fst snd] in H.
  apply dbind_inv in H. destruct H as (ty & p3 & H3 & H).
  assert (T3 : grew (len p) p2 p3 /\ match ty with
                 | Some t' => exists b', inv2 (len p) a v name loc t' p3 b' /\ forall sh, t' = kind_name sh -> kind_read E v (set_shape (Some sh) (set_type t' b'))
                 | None => st E (span (len p) (len p3)) p3 v name loc a
                 end).
  { destruct (type_node v) as [t|] eqn:Tn.
    - refine (shape_type_read _ _ _ _ _ _ _ _ _ _ I2 _ Tn H3). lia.
    - apply dbind_inv in H3. destruct H3 as (t & p4 & H4 & H3). apply dlift_inv in H4. destruct H4 as [Id ->].
      apply dret_inv in H3. destruct H3 as [-> ->]. unfold identify in Id. rewrite kept_own in Id. apply Names_proofs.identify_iff in Id.
      split; [apply edit_refl; lia|]. exists b2. apply inv1_inv2; auto; try congruence.
      + intros sh Q. unfold kind_read. rewrite Tn. exact Id.
      + apply inferred_builtin in Id. congruence.
      + intros _ (t0 & Q & _). congruence. }
  destruct T3 as [G3 T3]. pose proof (e_len _ _ _ _ G3) as L3.
  assert (A3 : app p p3) by (eapply edit_trans; [exact A1|]; eapply edit_trans; [exact G2|exact G3]).
  destruct ty as [t|].
  - destruct T3 as (b & I & Kn). apply dbind_inv in H. destruct H as (u & p4 & H4 & H).
    pose proof (i2_own _ _ _ _ _ _ _ _ I _ (ow_fdefs b)) as Od. pose proof (i2_own _ _ _ _ _ _ _ _ I _ (ow_inherits b)) as Oi.
    destruct (concrete_read [] _ _ _ _ _ _ _ b (i2_base _ _ _ _ _ _ _ _ I) (i2_custom _ _ _ _ _ _ _ _ I) (proj2 Od) (proj2 Oi) H4) as (sh & K).
    destruct (finish _ _ _ _ _ _ _ _ _ _ I ltac:(lia) (Kn sh) K) as [S4 G4].
    assert (A4 : app p p4) by (eapply edit_trans; [exact A3|exact G4]).
    apply dbind_inv in H. destruct H as (bb & p5 & H5 & H). apply rd_step in H5. destruct H5 as [-> _].
    assert (Fin : x = a /\ still p4 p').
    { destruct (b_shape bb) as [[]|];
        try (apply dret_inv in H; destruct H as [-> ->]; split; [reflexivity|apply still_refl]).
      apply dbind_inv in H. destruct H as (u6 & p6 & H6 & H). apply dret_inv in H. destruct H as [-> ->]. split; auto. exact (stills_todo a _ _ _ H6). }
    destruct Fin as [-> St]. apply still_app in St. split; [eapply app_trans; eauto|]. pose proof (app_len _ _ St) as L5.
    assert (Cr : carries (st E (span (len p) (len p4)) p4) (st E (span (len p) (len p')) p') p4 p').
    { apply st_carry; [apply (inside_edit _ none (len p4)); auto; intros z [_ L]; auto|]. intros z [X Y]. split; lia. }
    apply (Cr _ _ _ _ S4).
  - apply dret_inv in H. destruct H as [-> ->]. auto.
Qed.
End Made.

Lemma shape_at_read E inc_dt inc_ne :
  (forall path p u p', inc_dt path p = (Ok u, p') -> app p p' /\ from p' path u) ->
  (forall path p u p', inc_ne path p = (Ok u, p') -> app p p') ->
  forall k v name loc p x p', shape_at E inc_dt inc_ne k v name loc p = (Ok x, p') ->
  app p p' /\ st E (span (len p) (len p')) p' v name loc x.
Proof.
  intros Idt Ine. induction k as [|k IH]; intros v name loc p x p' H; cbn [shape_at] in H; [discriminate|].
  exact (new_shape_read E inc_dt inc_ne _ Idt Ine IH v name loc p x p' H).
Qed.
