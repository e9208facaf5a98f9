(** What the files loaded so far say stays true while a declaration is decoded
    (C62). *)
From Coq Require Import ZArith List String Bool Ascii Lia.
From Verif Require Import Base Scalars Heap Rdt Resolve Names Spec_Names Yaml Spec_Yaml Yaml_proofs Pipeline Spec_Resolve Spec_Model
  Decode Parse Spec_Parse Spec_Decode Parse_ends Heap_lemmas Parse_walk Parse_fresh Decode_says Decode_read Decode_made.
Import ListNotations.
Open Scope string_scope.
Open Scope list_scope.
Open Scope nat_scope.

Section Load.
Variable E : denv.
Variables text0 path0 : string.

(** A text that may stand at [path]. *)
Definition source (path text : string) : Prop := (path = path0 /\ text = text0) \/ e_read (d_y E) path = Some text.

(** As in the specification; [S] says what a type is. *)
Definition said_by (S : rel) (path k : string) (doc : ynode) (m : omap addr) : Prop :=
  filled (fun key n name x => name = key /\ S n key path x) (declarations_in k doc) m.
Definition frag_by (S : rel) (p : pst) (path text : string) (f : fragment) : Prop :=
  match f with
  | FLib l => exists doc lib, document E text = Ok (Some doc) /\ nth_error (p_libs p) l = Some lib
      /\ said_by S path "types" doc (l_types lib)
      /\ said_by S path "annotationTypes" doc (l_annots lib)
  | FDT _ o => exists doc v x, o = Some x
      /\ (if has_suffix ".json" path then doc = json_document text else document E text = Ok (Some doc))
      /\ y_kind v = KMap /\ entries v = type_entries doc /\ S v (d_base E path) path x
  | FNE => True
  end.
Definition said (Z : addr -> Prop) (p : pst) := said_by (st E Z p).
Definition frag_said (Z : addr -> Prop) (p : pst) := frag_by (st E Z p) p.

(** Library objects only change in their links. *)
Definition same_libs (p p' : pst) : Prop := forall l lib, nth_error (p_libs p) l = Some lib ->
  exists lib', nth_error (p_libs p') l = Some lib' /\ l_types lib' = l_types lib /\ l_annots lib' = l_annots lib.
Lemma same_libs_refl p : same_libs p p. Proof. intros l lib N. eauto. Qed.

Lemma frag_by_move (S S' : rel) p p' path text f : carries S S' p p' -> same_libs p p' -> frag_by S p path text f -> frag_by S' p' path text f.
Proof.
  intros C Li. destruct f as [l|us o|]; cbn; auto.
  - intros (doc & lib & D & N & T & A). destruct (Li _ _ N) as (lib' & N' & Qt & Qa). exists doc, lib'. rewrite Qt, Qa.
    split; auto. split; auto. split; (eapply filled_weak; [|eassumption]); intros k n nm x [? Q]; (split; auto); now apply C.
  - intros (doc & v & x & Q & D & K & En & Sx). exists doc, v, x. repeat (split; auto). now apply C.
Qed.
Lemma frag_said_move (Z Z' : addr -> Prop) p p' path text f : carries (st E Z p) (st E Z' p') p p' -> same_libs p p' ->
  frag_said Z p path text f -> frag_said Z' p' path text f.
Proof. apply frag_by_move. Qed.

(** The fragments in the cache, except [X], are as their files say, and this
    depends on [Z] only. *)
Record filed (X : string -> Prop) (Z : addr -> Prop) (p : pst) : Prop := {
  fi_lt : forall z, Z z -> z < len p;
  fi_says : forall path f, oget path (p_frags p) = Some f -> X path \/ exists text, source path text /\ frag_said Z p path text f
}.

Definition wider (n : nat) (Z Z' : addr -> Prop) : Prop := (forall z, Z z -> Z' z) /\ (forall z, Z' z -> Z z \/ n <= z).
Lemma wider_refl n Z : wider n Z Z. Proof. split; auto. Qed.
Lemma wider_trans n n' Z1 Z2 Z3 : n <= n' -> wider n Z1 Z2 -> wider n' Z2 Z3 -> wider n Z1 Z3.
Proof. intros L [A B] [C D]. split; auto. intros z Hz. destruct (D z Hz) as [H|H]; [auto|right; lia]. Qed.

Section Exempt.
Variable X : string -> Prop.

Lemma filed_move Z p p' : filed X Z p -> inside Z p p' -> p_frags p' = p_frags p -> same_libs p p' -> len p <= len p' -> filed X Z p'.
Proof.
  intros [L S] I Qf Li Le. split.
  - intros z Hz. specialize (L z Hz). lia.
  - intros path f O. rewrite Qf in O. destruct (S _ _ O) as [?|(text & So & Fs)]; auto. right. exists text. split; auto.
    eapply frag_said_move; [|exact Li|exact Fs]. apply st_carry; auto.
Qed.

(** The type under construction and its maps are not part of it. *)
Record held (a : addr) (Z : addr -> Prop) (p : pst) : Prop := {
  hd_filed : filed X Z p;
  hd_a : a < len p /\ ~ Z a;
  hd_own : forall b c, get_base (H_ p) a = Some b -> owns b c -> c < len p /\ ~ Z c
}.

Definition loads (p p' : pst) : Prop := forall Z, filed X Z p -> exists Z', filed X Z' p' /\ wider (len p) Z Z'.
Definition framed (a : addr) (p p' : pst) : Prop :=
  len p <= len p' /\ forall Z, held a Z p -> exists Z', held a Z' p' /\ wider (len p) Z Z'.
Definition walks (a : addr) {A} (m : D A) : Prop := forall p r p', m p = (Ok r, p') -> framed a p p'.

Lemma framed_refl a p : framed a p p.
Proof. split; [lia|]. intros Z H. exists Z. split; auto. apply wider_refl. Qed.
Lemma framed_trans a p1 p2 p3 : framed a p1 p2 -> framed a p2 p3 -> framed a p1 p3.
Proof.
  intros [L1 F1] [L2 F2]. split; [lia|]. intros Z H. destruct (F1 Z H) as (Z1 & H1 & W1). destruct (F2 Z1 H1) as (Z2 & H2 & W2).
  exists Z2. split; auto. eapply wider_trans; eauto.
Qed.
Lemma loads_trans p1 p2 p3 : len p1 <= len p2 -> loads p1 p2 -> loads p2 p3 -> loads p1 p3.
Proof.
  intros L F1 F2 Z H. destruct (F1 Z H) as (Z1 & H1 & W1). destruct (F2 Z1 H1) as (Z2 & H2 & W2).
  exists Z2. split; auto. eapply wider_trans; eauto.
Qed.

Lemma app_inside (Z : addr -> Prop) p p' : (forall z, Z z -> z < len p) -> app p p' -> inside Z p p'.
Proof. intros L A. apply (inside_edit Z none (len p)); auto. Qed.

Lemma loads_near p p' : app p p' -> p_frags p' = p_frags p -> same_libs p p' -> loads p p'.
Proof.
  intros A Qf Li Z F. exists Z. split; [|apply wider_refl]. eapply filed_move; eauto; [|now apply app_len].
  apply app_inside; auto. apply (fi_lt _ _ _ F).
Qed.
Lemma near_libs p p' : near p p' -> same_libs p p'.
Proof. intros (Q & _) l lib N. exists lib. rewrite Q. auto. Qed.

(** Something else is made. *)
Lemma framed_loads a p p' : app p p' -> loads p p' -> framed a p p'.
Proof.
  intros A L. split; [now apply app_len|]. intros Z [F [La Na] Ow]. destruct (L Z F) as (Z' & F' & W1 & W2). exists Z'. split; [|split; auto].
  pose proof (app_len _ _ A) as Le. split; auto.
  - split; [lia|]. intros Q. destruct (W2 a Q); auto; lia.
  - intros b c G O. rewrite (get_base_same (H_ p)) in G by (apply (e_cells _ _ _ _ A); auto).
    destruct (Ow b c G O) as [Lc Nc]. split; [lia|]. intros Q. destruct (W2 c Q); auto; lia.
Qed.

(** The type or its maps are changed. *)
Lemma framed_touch a b p p' : near p p' -> get_base (H_ p) a = Some b ->
  edit (body a b) (len p) p p' ->
  (forall b' c, get_base (H_ p') a = Some b' -> owns b' c -> owns b c \/ len p <= c < len p') -> framed a p p'.
Proof.
  intros Ne G Ed Ow. split; [exact (e_len _ _ _ _ Ed)|]. intros Z [F [La Na] O]. exists Z. split; [|apply wider_refl].
  pose proof (e_len _ _ _ _ Ed) as Le. split.
  - eapply filed_move; [exact F| |now destruct Ne as (_ & ? & _)|now apply near_libs|exact Le].
    apply (inside_edit Z (body a b) (len p)); auto. intros z Hz. split; [now apply (fi_lt _ _ _ F)|].
    intros [->|Oz]; auto. now apply (proj2 (O b z G Oz)).
  - split; auto; lia.
  - intros b' c G' Oc. destruct (Ow b' c G' Oc) as [Oc'|Lc].
    + destruct (O b c G Oc'). split; auto; lia.
    + split; [lia|]. intros Q. apply (fi_lt _ _ _ F) in Q. lia.
Qed.

Lemma near_hp {A} (m : M A) p r p' : hp m p = (r, p') -> near p p'.
Proof. unfold hp. destruct (m (p_st p)). intros H. injection H as _ <-. repeat split. Qed.

Lemma walks_bind {A B} a (m : D A) (f : A -> D B) : walks a m -> (forall x, walks a (f x)) -> walks a (dbind m f).
Proof.
  intros Hm Hf p r p' H. apply dbind_inv in H. destruct H as (x & p1 & H1 & H). eapply framed_trans; [eapply Hm|eapply Hf]; eauto.
Qed.
Lemma walks_ret {A} a (x : A) : walks a (dret x).
Proof. intros p r p' H. apply dret_inv in H. destruct H as [_ ->]. apply framed_refl. Qed.
Lemma walks_lift {A} a (x : res A) : walks a (dlift x).
Proof. intros p r p' H. apply dlift_inv in H. destruct H as [_ ->]. apply framed_refl. Qed.
Lemma walks_still {A} a (m : D A) : stills m -> along near m -> walks a m.
Proof.
  intros S Al p r p' H. pose proof (Al _ _ _ H) as Ne. apply framed_loads; [now apply still_app, (S _ _ _ H)|].
  apply loads_near; [now apply still_app, (S _ _ _ H)|now destruct Ne as (_ & ? & _)|now apply near_libs].
Qed.
Lemma walks_rd {A} a (g : list cell -> addr -> option A) x : walks a (hp (rd g x)).
Proof. intros p r p' H. apply rd_step in H. destruct H as [-> _]. apply framed_refl. Qed.

Lemma near_trans p1 p2 p3 : near p1 p2 -> near p2 p3 -> near p1 p3.
Proof. intros (A & B & C) (A' & B' & C'). repeat split; congruence. Qed.
Lemma along_near_id : forall p p', close p p' -> near p p'. Proof. intros p p' [N _]. exact N. Qed.

Lemma walks_upd a f : (forall b c, owns (f b) c -> owns b c) -> (forall b, b_loc (f b) = b_loc b) -> walks a (hp (upd_base a f)).
Proof.
  intros Ow Fl p r p' H. pose proof (near_hp _ _ _ _ H) as Ne. destruct (upd_change _ _ _ _ _ H (fun b _ => Fl b)) as (b & G & C & G').
  apply (framed_touch a b); auto.
  - apply (change_edit _ _ a _ _ _ C); auto. intros _. now left.
  - intros b' c Gb O. rewrite G' in Gb. injection Gb as <-. left. auto.
Qed.

(** Writing to an owned cell. *)
Lemma framed_cell a b c x p p' : near p p' -> get_base (H_ p) a = Some b -> owns b c -> c <> a -> change c x p p' -> framed a p p'.
Proof.
  intros Ne G O D C. apply (framed_touch a b); auto.
  - apply (change_edit _ _ c _ _ _ C); auto. intros _. now right.
  - intros b' c' Gb O'. rewrite (get_base_same (H_ p)) in Gb by (apply (c_old _ _ _ _ C); auto). rewrite G in Gb. injection Gb as <-. auto.
Qed.

Lemma walks_custom a loc k v : walks a (custom_facet E a loc k v).
Proof.
  unfold custom_facet. apply walks_bind; [apply walks_lift|]. intros x p r p' H. pose proof (near_hp _ _ _ _ H) as Ne.
  apply hp_ok in H. destruct H as (s' & H & Q). apply bind_inv in H. destruct H as (b & s1 & R & H). apply rd_ok in R. destruct R as [-> G].
  apply bind_inv in H. destruct H as (m & s1 & R & H). apply rd_ok in R. destruct R as [-> Gm].
  assert (L : b_facets b < len p) by (apply get_facets_nth in Gm; eapply nth_error_lt; eauto).
  assert (C : change (b_facets b) (CFacets (oset k x m)) p p').
  { apply (write_change _ _ _ r); auto; [exact (alike_facets p _ m _ Gm)|]. unfold hp. rewrite H. now subst p'. }
  apply (framed_cell a b (b_facets b) (CFacets (oset k x m))); auto; [constructor|].
  intros Q'. apply get_facets_nth in Gm. apply get_base_nth in G. rewrite Q' in Gm. rewrite G in Gm. discriminate.
Qed.

Lemma owns_plain sh b c : (match sh with SObject _ | SUnion _ _ => False | _ => True end) -> owns (set_shape (Some sh) b) c -> owns b c.
Proof.
  intros P O. destruct O; cbn in *; try constructor.
  - injection H as ->. destruct P.
  - injection H as ->. destruct P.
  - injection H as ->. destruct P.
Qed.

Lemma walks_own {F} a loc k v (r : res (option F)) mk :
  (forall f, match mk f with SObject _ | SUnion _ _ => False | _ => True end) -> walks a (own_facet E a loc k v r mk).
Proof.
  intros P. unfold own_facet. apply walks_bind; [apply walks_lift|]. intros [f|]; [|apply walks_custom].
  apply walks_upd; [|reflexivity]. intros b c. apply owns_plain. apply P.
Qed.

Section Shape.
Variable inc_dt : string -> D addr.
Variable inc_ne : string -> D unit.
Variable rec : ynode -> string -> string -> D addr.
Hypothesis Idt : forall path p u p', inc_dt path p = (Ok u, p') -> app p p' /\ loads p p'.
Hypothesis Ine : forall path p u p', inc_ne path p = (Ok u, p') -> app p p' /\ loads p p'.
Hypothesis Rec : forall v name loc p x p', rec v name loc p = (Ok x, p') -> app p p' /\ loads p p'.

Lemma walks_rec a v name loc : walks a (rec v name loc).
Proof. intros p r p' H. apply Rec in H. now apply framed_loads. Qed.

Lemma property_loads loc k v p pr p' : property rec loc k v p = (Ok pr, p') -> app p p' /\ loads p p'.
Proof.
  unfold property. destruct (chomp_optional k) as [name opt]. intros H.
  apply dbind_inv in H. destruct H as (x & p1 & H1 & H). apply dbind_inv in H. destruct H as (xb & p2 & H2 & H).
  apply rd_step in H2. destruct H2 as [-> _]. destruct (make_property _ _ _ _); [|discriminate]. apply dret_inv in H. destruct H as [_ ->].
  now apply Rec in H1.
Qed.

(** The map of properties that is written to belongs to the type. *)
Lemma own_props_framed a get set p m p' : (forall o f, get (set o f) = o) ->
  (forall f m', get f = Some m' -> o_props f = Some m' \/ o_pprops f = Some m') ->
  (forall o f m', o_props (set o f) = Some m' \/ o_pprops (set o f) = Some m' -> o = Some m' \/ o_props f = Some m' \/ o_pprops f = Some m') ->
  own_props a get set p = (Ok m, p') -> framed a p p' /\ exists b, get_base (H_ p') a = Some b /\ owns b m.
Proof.
  intros Gs Go So H. unfold own_props in H. pose proof (near_hp _ _ _ _ H) as Ne.
  apply hp_ok in H. destruct H as (s' & H & Q). apply bind_inv in H. destruct H as (b & s1 & R & H). apply rd_ok in R. destruct R as [-> G].
  destruct (b_shape b) as [[]|] eqn:Sh; try discriminate. match type of Sh with _ = Some (SObject ?f) => rename f into o end. destruct (get o) as [m'|] eqn:Gm.
  - unfold ret in H. injection H as -> <-. assert (Q' : p' = p) by (subst p'; now destruct p). clear Q. subst p'. split; [apply framed_refl|]. exists b. split; auto.
    destruct (Go _ _ Gm) as [?|?]; [eapply ow_props|eapply ow_pprops]; eauto.
  - apply bind_inv in H. destruct H as (m' & s1 & Al & H). apply bind_inv in H. destruct H as (u & s2 & U & H). unfold ret in H. injection H as <- <-.
    set (p1 := with_st p s1) in *.
    assert (H1 : hp (alloc (CProps [])) p = (Ok m', p1)) by (unfold hp; now rewrite Al).
    assert (H2 : hp (upd_base a (set_shape (Some (SObject (set (Some m') o))))) p1 = (Ok u, p')).
    { unfold hp. cbn. rewrite U. now subst p'. }
    destruct (alloc_app _ _ _ _ H1) as (Qm & L1 & A1 & N1 & F1 & X1). destruct (upd_change _ _ _ _ _ H2 (fun _ _ => eq_refl)) as (b1 & G1 & C & G').
    rewrite (app_base _ _ _ _ A1 G) in G1. injection G1 as <-. pose proof (c_len _ _ _ _ C) as L2.
    split; [|eexists; split; [exact G'|]].
    + apply (framed_touch a b); auto.
      * eapply edit_trans; [apply app_edit; [|exact A1]; lia|]. eapply edit_weak; [| |apply (change_edit (body a b) (len p1) _ _ _ _ C); auto; intros _; now left]; auto; lia.
      * intros b' c Gb O. rewrite G' in Gb. injection Gb as <-.
        assert (Y : forall f, SObject (set (Some m') o) = SObject f -> o_props f = Some c \/ o_pprops f = Some c -> owns b c \/ len p <= c < len p').
        { intros f Qf Hc. injection Qf as <-. destruct (So _ _ _ Hc) as [Qc|[Qc|Qc]].
          - injection Qc as <-. right. lia.
          - left. eapply ow_props; eauto.
          - left. eapply ow_pprops; eauto. }
        destruct O; cbn in *; try (left; constructor); try discriminate; injection H as Hq; (apply (Y f); [now rewrite Hq|auto]).
    + destruct (Go (set (Some m') o) m' (Gs _ _)); [eapply ow_props|eapply ow_pprops]; cbn; eauto.
Qed.

Lemma framed_set a b m k pr p u p' : get_base (H_ p) a = Some b -> owns b m -> hp (props_set m k pr) p = (Ok u, p') -> framed a p p'.
Proof.
  intros G O H. pose proof (near_hp _ _ _ _ H) as Ne. destruct (props_change _ _ _ _ _ _ H) as (l & Gm & C & _).
  eapply framed_cell; eauto. intros ->. apply get_props_nth in Gm. apply get_base_nth in G. rewrite G in Gm. discriminate.
Qed.

Lemma walks_property a loc k v : walks a (one_property E rec a loc k v).
Proof.
  intros p r p' H. unfold one_property in H. destruct (chomp_optional k) as [name opt]. destruct (is_pattern_name name).
  - apply dbind_inv in H. destruct H as (m & p1 & H1 & H).
    destruct (own_props_framed a o_pprops set_pprops p m p1) as [F1 (b & G & O)]; auto.
    { intros ? ? ? [?|?]; auto. }
    apply dbind_inv in H. destruct H as (x & p2 & H2 & H). apply Rec in H2. destruct H2 as [A2 L2].
    apply dbind_inv in H. destruct H as (xb & p3 & H3 & H). apply rd_step in H3. destruct H3 as [-> _].
    apply dbind_inv in H. destruct H as (d & p3 & H3 & H). apply dlift_inv in H3. destruct H3 as [_ ->].
    destruct d as [|k' re]; [discriminate|]. eapply framed_trans; [exact F1|]. eapply framed_trans; [exact (framed_loads _ _ _ A2 L2)|].
    eapply framed_set; [|exact O|exact H]. eapply app_base; eauto.
  - apply dbind_inv in H. destruct H as (m & p1 & H1 & H).
    destruct (own_props_framed a o_props set_props p m p1) as [F1 (b & G & O)]; auto.
    { intros ? ? ? [?|?]; auto. }
    apply dbind_inv in H. destruct H as (pr & p2 & H2 & H). apply property_loads in H2. destruct H2 as [A2 L2].
    eapply framed_trans; [exact F1|]. eapply framed_trans; [exact (framed_loads _ _ _ A2 L2)|].
    eapply framed_set; [|exact O|exact H]. eapply app_base; eauto.
Qed.

Lemma walks_properties a loc l : walks a (properties E rec a loc l).
Proof.
  induction l as [| |k v l IH] using pair_induction; cbn [properties]; try apply walks_ret.
  apply walks_bind; [apply walks_property|auto].
Qed.

Lemma walks_items a x : walks a (hp (upd_arr a (set_items (Some x)))).
Proof.
  intros p r p' H. pose proof (near_hp _ _ _ _ H) as Ne. apply hp_ok in H. destruct H as (s' & H & Q). unfold upd_arr in H.
  apply bind_inv in H. destruct H as (b & s1 & R & H). apply rd_ok in R. destruct R as [-> G].
  destruct (b_shape b) as [[]|] eqn:Sh;
    try (unfold ret in H; injection H as _ <-; assert (Q' : p' = p) by (subst p'; now destruct p); rewrite Q'; apply framed_refl).
  match type of Sh with _ = Some (SArray ?f) => rename f into af end.
  assert (L : a < len p) by (exact (base_lt _ _ _ G)).
  assert (C : change a (CBase (set_shape (Some (SArray (set_items (Some x) af))) b)) p p').
  { apply (write_change _ _ _ r); auto; [apply (alike_base p _ _ _ G); reflexivity|]. unfold hp. rewrite H. now subst p'. }
  apply (framed_touch a b); auto.
  - apply (change_edit _ _ a _ _ _ C); auto. intros _. now left.
  - intros b' c Gb O. apply get_base_nth in Gb. rewrite (c_new _ _ _ _ C) in Gb. injection Gb as <-. left. now apply owns_plain in O.
Qed.

Lemma walks_objfacet a loc k v p b f r p' : get_base (H_ p) a = Some b -> b_shape b = Some (SObject f) ->
  own_facet E a loc k v (obj_facet E k v f) SObject p = (Ok r, p') -> framed a p p'.
Proof.
  intros G Sh H. unfold own_facet in H. apply dbind_inv in H. destruct H as (o & p1 & H1 & H). apply dlift_inv in H1. destruct H1 as [H1 ->].
  destruct o as [f'|]; [|eapply walks_custom; eauto].
  assert (Q : o_props f' = o_props f /\ o_pprops f' = o_pprops f).
  { clear - H1. unfold obj_facet in H1. repeat match type of H1 with context [String.eqb ?x ?y] => destruct (String.eqb x y) end;
      try discriminate; unfold or_err in H1; match type of H1 with rbind (match ?x with _ => _ end) _ = _ => destruct x end; cbn in H1; try discriminate; injection H1 as <-; auto. }
  destruct Q as [Q1 Q2]. pose proof (near_hp _ _ _ _ H) as Ne. destruct (upd_change _ _ _ _ _ H (fun _ _ => eq_refl)) as (b0 & G0 & C & G').
  rewrite G in G0. injection G0 as <-. apply (framed_touch a b); auto.
  - apply (change_edit _ _ a _ _ _ C); auto. intros _. now left.
  - intros b' c Gb O. rewrite G' in Gb. injection Gb as <-. left. destruct O; cbn in *; try constructor; try discriminate.
    + injection H0 as <-. rewrite Q1 in H2. eapply ow_props; eauto.
    + injection H0 as <-. rewrite Q2 in H2. eapply ow_pprops; eauto.
Qed.

Lemma walks_facet a loc k v : walks a (facet E rec a loc k v).
Proof.
  intros p r p' H. unfold facet in H. apply dbind_inv in H. destruct H as (b & p1 & H1 & H). apply rd_step in H1. destruct H1 as [-> G].
  destruct (b_shape b) as [[]|] eqn:Sh;
    try (eapply walks_custom; eassumption); try (eapply walks_own; [|eassumption]; cbn; auto; fail);
    try (apply dret_inv in H; destruct H as [_ ->]; apply framed_refl).
  - destruct (String.eqb k "items").
    + revert H. apply walks_bind; [apply walks_rec|]. intros x. apply walks_items.
    + eapply walks_own; [|eassumption]. cbn. auto.
  - destruct (String.eqb k "properties"); [|eapply walks_objfacet; eauto].
    destruct (negb _); [discriminate|]. eapply walks_properties; eauto.
Qed.
Lemma walks_facets a loc l : walks a (facets E rec a loc l).
Proof.
  induction l as [|[k v] l IH]; cbn [facets]; [apply walks_ret|]. apply walks_bind; [apply walks_facet|auto].
Qed.

Lemma ret_same {A} (x y : A) p p' : hp (ret x) p = (Ok y, p') -> y = x /\ p' = p.
Proof. unfold hp, ret. intros H. injection H as <- <-. split; auto. now destruct p. Qed.

Lemma walks_concrete a loc t fs : walks a (concrete E rec a loc t fs).
Proof.
  intros p r p' H. unfold concrete in H. apply dbind_inv in H. destruct H as (u1 & p1 & H1 & H).
  eapply framed_trans. { eapply walks_upd; [| |exact H1]; [|reflexivity]. intros b c. apply owns_same; reflexivity. }
  destruct (upd_change _ _ _ _ _ H1 (fun _ _ => eq_refl)) as (b0 & G0 & _ & G1). clear H1 G0.
  apply dbind_inv in H. destruct H as (sh & p2 & H2 & H). apply dbind_inv in H. destruct H as (u3 & p3 & H3 & H).
  assert (A2 : app p1 p2 /\ near p1 p2 /\ forall b c, owns (set_shape (Some sh) b) c -> owns b c \/ len p1 <= c < len p2).
  { clear - H2. pose proof (near_hp _ _ _ _ H2) as Ne. unfold empty_shape in H2.
    assert (P : forall sh', hp (ret sh') p1 = (Ok sh, p2) -> (match sh' with SObject _ | SUnion _ _ => False | _ => True end) ->
       app p1 p2 /\ near p1 p2 /\ forall b c, owns (set_shape (Some sh) b) c -> owns b c \/ len p1 <= c < len p2).
    { intros sh' H P. apply ret_same in H. destruct H as [-> ->]. split; [apply app_refl|split; [repeat split|]].
      - intros b c O. left. now apply owns_plain in O. }
    repeat match type of H2 with hp (if ?c then _ else _) _ = _ => destruct c end;
      try (exact (P _ H2 I)).
    all: try (apply ret_same in H2; destruct H2 as [-> ->]; split; [apply app_refl|split; [repeat split|]];
              intros b c O; left; destruct O; cbn in *; try constructor; try discriminate; injection H as <-; discriminate).
    apply hp_ok in H2. destruct H2 as (s' & H2 & Q). apply bind_inv in H2. destruct H2 as (sl & s1 & Al & H2). unfold ret in H2. injection H2 as <- <-.
    assert (H1 : hp (alloc (CSlice [])) p1 = (Ok sl, p2)) by (unfold hp; rewrite Al; now subst p2).
    destruct (alloc_app _ _ _ _ H1) as (Qm & L1 & A1 & _). split; auto. split; auto. intros b c O. destruct O; cbn in *; try (left; constructor); try discriminate.
    injection H as <- <-. right. lia. }
  destruct A2 as (A2 & N2 & O2). destruct (upd_change _ _ _ _ _ H3 (fun _ _ => eq_refl)) as (b1 & G2 & C3 & G3).
  rewrite (app_base _ _ _ _ A2 G1) in G2. injection G2 as <-. pose proof (c_len _ _ _ _ C3) as L3.
  eapply framed_trans with (p2 := p3).
  - apply (framed_touch a (set_type t b0)); auto.
    + eapply near_trans; [exact N2|]. eapply near_hp; eauto.
    + eapply edit_trans; [apply app_edit; [|exact A2]; lia|]. pose proof (app_len _ _ A2).
      eapply edit_weak; [| |apply (change_edit (body a (set_type t b0)) (len p2) _ _ _ _ C3); auto; intros _; now left]; auto; lia.
    + intros b' c Gb O. rewrite G3 in Gb. injection Gb as <-. rewrite L3. now apply O2.
  - destruct sh; try (eapply walks_facets; exact H).
    unfold put_facets in H. injection H as _ <-.
    apply (framed_touch a (set_shape (Some SUnknown) (set_type t b0))); [repeat split|exact G3| |].
    + split; auto.
      * intros z Lz Nz. cbn. destruct (Nat.eqb_spec z a) as [->|]; auto. destruct Nz. now left.
      * exists []. cbn. now rewrite app_nil_r.
      * now apply stays_same.
    + intros b' c Gb O. left. unfold H_ in Gb, G3. cbn in Gb. rewrite G3 in Gb. injection Gb as <-. exact O.
Qed.

Lemma framed_defs a m loc l : forall p b r p', get_base (H_ p) a = Some b -> owns b m -> facet_defs rec m loc l p = (Ok r, p') -> framed a p p'.
Proof.
  induction l as [| |k v l IH] using pair_induction; intros p b r p' G O H; cbn [facet_defs] in H.
  - apply dret_inv in H. destruct H as [_ ->]. apply framed_refl.
  - discriminate.
  - apply dbind_inv in H. destruct H as (pr & p1 & H1 & H). apply property_loads in H1. destruct H1 as [A1 L1].
    apply dbind_inv in H. destruct H as (u & p2 & H2 & H). pose proof (app_base _ _ _ _ A1 G) as G1.
    eapply framed_trans; [exact (framed_loads _ _ _ A1 L1)|]. eapply framed_trans; [exact (framed_set _ _ _ _ _ _ _ _ G1 O H2)|].
    refine (IH p2 b r p' _ O H). destruct (props_change _ _ _ _ _ _ H2) as (l2 & Gm & C & _).
    rewrite (get_base_same (H_ p1)); auto. apply (c_old _ _ _ _ C). intros ->. apply get_props_nth in Gm. apply get_base_nth in G1. rewrite G1 in Gm. discriminate.
Qed.

Lemma walks_examples a loc v : walks a (decode_examples E inc_ne a loc v).
Proof.
  unfold decode_examples. apply walks_bind; [apply walks_rd|]. intros b. destruct (b_example b); [apply walks_lift|].
  destruct (y_kind v); try apply walks_lift.
  - apply walks_bind.
    + apply walks_still; [apply stills_example_map|]. apply (al_example_map near along_near_id near_trans).
    + intros m. apply walks_upd; [|reflexivity]. intros b0 c. apply owns_same; reflexivity.
  - destruct (String.eqb _ _); [|apply walks_lift]. apply walks_bind.
    + intros p r p' H. apply Ine in H. now apply framed_loads.
    + intros _. apply walks_upd; [|reflexivity]. intros b0 c. apply owns_same; reflexivity.
Qed.
Lemma walks_example a loc v : walks a (decode_example E a loc v).
Proof.
  unfold decode_example. apply walks_bind; [apply walks_rd|]. intros b. destruct (b_examples b); [apply walks_lift|].
  apply walks_bind.
  - apply walks_still; [apply stills_example|]. apply (al_example near along_near_id near_trans).
  - intros m. apply walks_upd; [|reflexivity]. intros b0 c. apply owns_same; reflexivity.
Qed.

Lemma walks_new_defs a loc l : walks a (m <- hp (alloc (CProps [])) ;; hp (upd_base a (set_fdefs m)) ;;; facet_defs rec m loc l)%D.
Proof.
  intros p r p' H. apply dbind_inv in H. destruct H as (m & p1 & H1 & H). destruct (alloc_app _ _ _ _ H1) as (Qm & L1 & A1 & N1 & F1 & X1).
  apply dbind_inv in H. destruct H as (u1 & p2 & H2 & H). destruct (upd_change _ _ _ _ _ H2 (fun _ _ => eq_refl)) as (b & G0 & C2 & G2).
  assert (G : a < len p -> get_base (H_ p) a = Some b).
  { intros L. rewrite <- G0. symmetry. apply get_base_same. apply (e_cells _ _ _ _ A1); auto. }
  assert (La : a < len p).
  { destruct (Nat.lt_ge_cases a (len p)) as [|Ge]; auto. pose proof (base_lt _ _ _ G0) as Lt. fold (len p1) in Lt. assert (Q : a = m) by lia. subst a.
    apply get_base_nth in G0. rewrite N1 in G0. discriminate. }
  specialize (G La). pose proof (c_len _ _ _ _ C2) as L2. eapply framed_trans with (p2 := p2).
  - apply (framed_touch a b); auto.
    + eapply near_trans; eapply near_hp; eauto.
    + eapply edit_trans; [apply app_edit; [|exact A1]; lia|].
      eapply edit_weak; [| |apply (change_edit (body a b) (len p1) _ _ _ _ C2); auto; intros _; now left]; auto; lia.
    + intros b' c Gb O. rewrite G2 in Gb. injection Gb as <-.
      destruct O; cbn in *; try (right; lia); left; [constructor|constructor|eapply ow_props; eauto|eapply ow_pprops; eauto|eapply ow_anyof; eauto].
  - eapply framed_defs; [exact G2| |exact H]. constructor.
Qed.

Lemma walks_entry a loc k v : walks a (entry E inc_ne rec a loc k v).
Proof.
  assert (U : forall f, (forall b, b_facets (f b) = b_facets b /\ b_fdefs (f b) = b_fdefs b /\ b_inherits (f b) = b_inherits b /\ b_shape (f b) = b_shape b /\ b_loc (f b) = b_loc b) ->
    walks a (hp (upd_base a f))).
  { intros f Hf. apply walks_upd; [|intros b; apply (Hf b)]. intros b c. destruct (Hf b) as (A & B & C & D & _). now apply owns_same. }
  unfold entry. destruct (String.eqb _ _). { apply walks_bind; [apply walks_lift|]. intros. apply U. auto 10. }
  destruct (String.eqb _ _). { apply walks_bind; [apply walks_lift|]. intros. apply U. auto 10. }
  destruct (String.eqb _ _). { apply walks_bind; [apply walks_lift|]. intros. apply U. auto 10. }
  destruct (String.eqb _ _). { apply walks_new_defs. }
  destruct (String.eqb _ _). { apply walks_example. }
  destruct (String.eqb _ _). { apply walks_examples. }
  destruct (String.eqb _ _). { apply walks_bind; [apply walks_lift|]. intros. apply U. auto 10. }
  destruct (String.eqb _ _). { apply walks_ret. }
  apply walks_bind; [apply walks_still; [apply stills_make_ext|apply (al_make_ext near along_near_id near_trans)]|].
  intros x. apply walks_bind; [apply walks_rd|]. intros b. apply U. auto 10.
Qed.

Lemma walks_entries a loc l : forall t fs, walks a (decode_entries E inc_ne rec a loc l t fs).
Proof.
  induction l as [| |k v l IH] using pair_induction; intros t fs; cbn [decode_entries]; [apply walks_ret|apply walks_lift|].
  destruct (String.eqb _ _); [apply IH|]. destruct (known_key _); [|apply IH]. apply walks_bind; [apply walks_entry|]. intros. apply IH.
Qed.

Lemma walks_decode a loc v : walks a (decode E inc_ne rec a loc v).
Proof.
  unfold decode. destruct (y_kind v); try apply walks_ret; try apply walks_lift.
  apply walks_bind; [apply walks_entries|]. intros. apply walks_ret.
Qed.

Lemma parents_loads name loc l : forall p r p', parents rec name loc l p = (Ok r, p') -> app p p' /\ loads p p'.
Proof.
  induction l as [|v l IH]; intros p r p' H; cbn [parents] in H.
  - apply dret_inv in H. destruct H as [_ ->]. split; [apply app_refl|]. apply loads_near; [apply app_refl|auto|apply same_libs_refl].
  - destruct (y_kind v); try discriminate. destruct (String.eqb _ _); [discriminate|].
    apply dbind_inv in H. destruct H as (x & p1 & H1 & H). apply Rec in H1. destruct H1 as [A1 L1].
    apply dbind_inv in H. destruct H as (xs & p2 & H2 & H). apply IH in H2. destruct H2 as [A2 L2]. apply dret_inv in H. destruct H as [_ ->].
    split; [eapply app_trans; eauto|]. exact (loads_trans _ _ _ (app_len _ _ A1) L1 L2).
Qed.

Lemma walks_shape_type a name loc t fs : walks a (shape_type E inc_dt rec a name loc t fs).
Proof.
  assert (U : forall f, (forall b, b_facets (f b) = b_facets b /\ b_fdefs (f b) = b_fdefs b /\ b_inherits (f b) = b_inherits b /\ b_shape (f b) = b_shape b /\ b_loc (f b) = b_loc b) ->
    walks a (hp (upd_base a f))).
  { intros f Hf. apply walks_upd; [|intros b; apply (Hf b)]. intros b c. destruct (Hf b) as (A & B & C & D & _). now apply owns_same. }
  unfold shape_type. destruct (y_kind t); try apply walks_lift.
  - intros p r p' H. apply dbind_inv in H. destruct H as (l & p0 & H0 & H). apply parents_loads in H0. destruct H0 as [A0 L0].
    eapply framed_trans; [exact (framed_loads _ _ _ A0 L0)|]. clear A0 L0 p.
    apply dbind_inv in H. destruct H as (sl & p1 & H1 & H). destruct (alloc_app _ _ _ _ H1) as (Qm & L1 & A1 & N1 & F1 & X1).
    apply dbind_inv in H. destruct H as (u1 & p2 & H2 & H). destruct (upd_change _ _ _ _ _ H2 (fun _ _ => eq_refl)) as (b & G0 & C2 & G2). apply dret_inv in H. destruct H as [_ ->].
    assert (G : a < len p0 -> get_base (H_ p0) a = Some b).
    { intros L. rewrite <- G0. symmetry. apply get_base_same. apply (e_cells _ _ _ _ A1); auto. }
    assert (La : a < len p0).
    { destruct (Nat.lt_ge_cases a (len p0)) as [|Ge]; auto. pose proof (base_lt _ _ _ G0) as Lt. fold (len p1) in Lt. assert (Q : a = sl) by lia. subst a.
      apply get_base_nth in G0. rewrite N1 in G0. discriminate. }
    specialize (G La). pose proof (c_len _ _ _ _ C2) as L2.
    apply (framed_touch a b); auto.
    + eapply near_trans; eapply near_hp; eauto.
    + eapply edit_trans; [apply app_edit; [|exact A1]; lia|].
      eapply edit_weak; [| |apply (change_edit (body a b) (len p1) _ _ _ _ C2); auto; intros _; now left]; auto; lia.
    + intros b' c Gb O. rewrite G2 in Gb. injection Gb as <-.
      destruct O; cbn in *; try (right; lia); left; [constructor|constructor|eapply ow_props; eauto|eapply ow_pprops; eauto|eapply ow_anyof; eauto].
  - destruct (String.eqb (y_tag t) "!!str").
    { destruct (y_value t) as [|c s].
      - apply walks_bind; [apply walks_lift|]. intros. apply walks_ret.
      - destruct (Ascii.eqb _ _); [|apply walks_ret]. apply walks_bind; [apply U; auto 10|]. intros.
        destruct (d_schema _ _); [|apply walks_lift]. apply walks_bind; [|intros; apply walks_ret].
        apply walks_upd; [|reflexivity]. intros b z. now apply owns_plain. }
    destruct (String.eqb (y_tag t) "!include").
    { apply walks_bind; [intros p r p' H; apply Idt in H; now apply framed_loads|]. intros.
      apply walks_bind; [apply U; auto 10|]. intros. apply walks_ret. }
    destruct (String.eqb (y_tag t) "!!null"); [apply walks_ret|apply walks_lift].
Qed.

Lemma walks_rest a name loc tf : walks a (
  ty <- match fst tf with
        | None => ty <- dlift (identify (snd tf)) ;; dret (Some ty)
        | Some t => shape_type E inc_dt rec a name loc t (snd tf)
        end ;;
  match ty with
  | None => dret a
  | Some ty =>
      concrete E rec a loc ty (snd tf) ;;;
      b <- hp (rd get_base a) ;;
      match b_shape b with
      | Some SUnknown => put_todo a ;;; dret a
      | _ => dret a
      end
  end)%D.
Proof.
  apply walks_bind.
  - destruct (fst tf); [apply walks_shape_type|]. apply walks_bind; [apply walks_lift|]. intros. apply walks_ret.
  - intros [ty|]; [|apply walks_ret]. apply walks_bind; [apply walks_concrete|]. intros. apply walks_bind; [apply walks_rd|]. intros b.
    destruct (b_shape b) as [[]|]; try apply walks_ret. apply walks_bind; [|intros; apply walks_ret].
    apply walks_still; [apply stills_todo|]. apply (al_todo near along_near_id).
Qed.

Lemma new_shape_loads v name loc p x p' : new_shape E inc_dt inc_ne rec v name loc p = (Ok x, p') -> loads p p'.
Proof.
  intros H Z F. unfold new_shape in H. apply dbind_inv in H. destruct H as (a & p1 & H1 & H). destruct (make_base_read E _ _ _ _ _ H1) as [A1 (b1 & I1)].
  pose proof (near_hp _ _ _ _ H1) as N1. pose proof (app_len _ _ A1) as L1.
  assert (Hd : held a Z p1).
  { split.
    - eapply filed_move; [exact F| |now destruct N1 as (_ & ? & _)|now apply near_libs|exact L1]. apply app_inside; auto. apply (fi_lt _ _ _ F).
    - pose proof (inv1_lt _ _ _ _ _ _ _ _ I1). split; auto. intros Q. apply (fi_lt _ _ _ F) in Q. pose proof (i1_a _ _ _ _ _ _ _ _ I1). lia.
    - intros b c G O. rewrite (i1_base _ _ _ _ _ _ _ _ I1) in G. injection G as <-. pose proof (i1_own _ _ _ _ _ _ _ _ I1 c O).
      split; [lia|]. intros Q. apply (fi_lt _ _ _ F) in Q. lia. }
  apply dbind_inv in H. destruct H as (tf & p2 & H2 & H).
  pose proof (walks_decode _ _ _ _ _ _ H2) as F2. pose proof (walks_rest _ _ _ _ _ _ _ H) as F3.
  destruct (framed_trans _ _ _ _ F2 F3) as [_ W]. destruct (W Z Hd) as (Z' & Hd' & W'). exists Z'. split; [apply Hd'|].
  destruct W' as [Wa Wb]. split; auto. intros z Hz. destruct (Wb z Hz); auto. right. lia.
Qed.
End Shape.

Lemma shape_at_loads inc_dt inc_ne :
  (forall path p u p', inc_dt path p = (Ok u, p') -> app p p' /\ loads p p' /\ from p' path u) ->
  (forall path p u p', inc_ne path p = (Ok u, p') -> app p p' /\ loads p p') ->
  forall k v name loc p x p', shape_at E inc_dt inc_ne k v name loc p = (Ok x, p') -> app p p' /\ loads p p'.
Proof.
  intros Idt Ine. induction k as [|k IH]; intros v name loc p x p' H; [discriminate|]. split.
  - refine (proj1 (shape_at_read E inc_dt inc_ne _ _ (S k) v name loc p x p' H)); intros ? ? ? ? HH; [apply Idt in HH|apply Ine in HH]; tauto.
  - cbn [shape_at] in H. eapply new_shape_loads; [| | |exact H]; auto.
    intros path q u q' HH. apply Idt in HH. tauto.
Qed.
End Exempt.
End Load.
