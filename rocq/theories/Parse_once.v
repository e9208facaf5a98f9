(** Every file is loaded once, and what is loaded is what references see. *)
From Coq Require Import ZArith List String Bool Ascii Lia.
From Verif Require Import Base Scalars Heap Rdt Resolve Names Yaml Spec_Yaml Yaml_proofs Pipeline Decode Parse Spec_Parse Parse_ends Parse_walk.
From Verif Require Pipeline_proofs Heap_lemmas.
Import ListNotations.
Open Scope string_scope.
Open Scope list_scope.
Open Scope nat_scope.

(** * The uses as written *)

Lemma oget_nodup_in {A} (m : omap A) k x : NoDup (map fst m) -> In (k, x) m -> oget k m = Some x.
Proof.
  induction m as [|[k' y] m IH]; cbn; intros ND I; [destruct I|]. inversion ND; subst. destruct I as [I|I].
  - injection I as -> ->. now rewrite String.eqb_refl.
  - destruct (String.eqb k k') eqn:Q; [|auto]. apply String.eqb_eq in Q. subst. destruct H1. apply (in_map fst) in I. exact I.
Qed.

Lemma oget_none_in {A} (m : omap A) k : ~ In k (map fst m) -> oget k m = None.
Proof.
  induction m as [|[k' y] m IH]; cbn; intros N; [reflexivity|]. destruct (String.eqb k k') eqn:Q; [|tauto].
  apply String.eqb_eq in Q. subst. tauto.
Qed.

Definition uses_good (us : list (string * ynode)) (m : omap string) : Prop :=
  NoDup (map fst m) /\ forall k v, In (k, v) m <-> exists x, last_pair us k x /\ y_value x = v.

Lemma uses_good_nil : uses_good [] [].
Proof. split; [constructor|]. intros k v. split; [intros []|]. intros (x & (b & a & E & _) & _). destruct b; discriminate. Qed.

Lemma uses_good_set us m k x : uses_good us m -> uses_good (us ++ [(k, x)]) (oset k (y_value x) m).
Proof.
  intros [ND G]. split; [now apply oset_keys|]. intros k' v. rewrite oset_in by assumption. rewrite G. split.
  - intros [[-> ->]|[N (y & L & V)]]; [exists x; split; [|reflexivity]|exists y; split; [|exact V]]; apply last_pair_snoc; auto.
  - intros (y & L & V). apply last_pair_snoc in L. destruct L as [[-> ->]|[N L]]; [auto|right; eauto].
Qed.

Lemma uses_map_good l : forall us0 m0 m, uses_good us0 m0 -> uses_map l m0 = Ok m ->
  exists us, pairs_of l us /\ uses_good (us0 ++ us) m.
Proof.
  induction l as [| |k v l IH] using pair_induction; intros us0 m0 m G H.
  - injection H as <-. exists []. split; [constructor|]. now rewrite app_nil_r.
  - discriminate.
  - cbn [uses_map] in H. destruct (IH (us0 ++ [(y_value k, v)]) _ _ (uses_good_set _ _ _ _ G) H) as (us & P & G').
    exists ((y_value k, v) :: us). split; [now constructor|]. now rewrite <- app_assoc in G'.
Qed.

Definition set_ (kv : string * ynode) : bool := negb (String.eqb (y_tag (snd kv)) "!!null").

(** What a list of pairs says about [uses]: nothing, or a mapping. *)
Definition uses_said (ps : list (string * ynode)) (m : omap string) : Prop :=
  (m = [] /\ forall u, ~ last_pair (filter set_ ps) "uses" u)
  \/ exists u us, last_pair (filter set_ ps) "uses" u /\ pairs_of (y_content u) us /\ uses_good us m.

Lemma uses_said_nil : uses_said [] [].
Proof. left. split; [reflexivity|]. intros u (b & a & E & _). destruct b; discriminate. Qed.

Lemma said_other ps m k v : k <> "uses" \/ y_tag v = "!!null" -> uses_said ps m -> uses_said (ps ++ [(k, v)]) m.
Proof.
  intros O S. unfold uses_said. rewrite filter_app. cbn [filter]. destruct (set_ (k, v)) eqn:F; [|now rewrite app_nil_r].
  assert (N : k <> "uses").
  { destruct O as [N|N]; [exact N|]. unfold set_ in F. cbn in F. rewrite N in F. discriminate. }
  destruct S as [[-> S]|(u & us & L & P & G)].
  - left. split; [reflexivity|]. intros u L. apply last_pair_snoc in L. destruct L as [[Q _]|[_ L]]; [congruence|exact (S u L)].
  - right. exists u, us. split; [|auto]. apply last_pair_snoc. auto.
Qed.

Lemma said_uses ps v us m : y_tag v <> "!!null" -> pairs_of (y_content v) us -> uses_good us m -> uses_said (ps ++ [("uses", v)]) m.
Proof.
  intros N P G. right. exists v, us. split; [|auto]. rewrite filter_app. cbn [filter].
  assert (F : set_ ("uses", v) = true). { unfold set_. cbn. apply negb_true_iff. now apply String.eqb_neq. }
  rewrite F. apply last_pair_snoc. auto.
Qed.

Lemma lib_entries_said E inc_dt inc_ne loc l : forall b p b' p' ps0,
  lib_entries E inc_dt inc_ne loc l b p = (Ok b', p') -> uses_said ps0 (pl_uses b) ->
  exists ps, pairs_of l ps /\ uses_said (ps0 ++ ps) (pl_uses b').
Proof.
  induction l as [| |k v l IH] using pair_induction; intros b p b' p' ps0 H S.
  - injection H as <- _. exists []. split; [constructor|]. now rewrite app_nil_r.
  - discriminate.
  - assert (Go : forall b1 p1, lib_entries E inc_dt inc_ne loc l b1 p1 = (Ok b', p') -> uses_said (ps0 ++ [(y_value k, v)]) (pl_uses b1) ->
      exists ps, pairs_of (k :: v :: l) ps /\ uses_said (ps0 ++ ps) (pl_uses b')).
    { intros b1 p1 H1 S1. destruct (IH _ _ _ _ _ H1 S1) as (ps & P & S2). exists ((y_value k, v) :: ps). split; [now constructor|].
      now rewrite <- app_assoc in S2. }
    cbn [lib_entries] in H. destruct (String.eqb (y_value k) "uses") eqn:Q1.
    { apply String.eqb_eq in Q1. unfold dbind, dlift in H. destruct (lib_uses v (pl_uses b)) as [m| | |] eqn:U; try discriminate.
      apply (Go _ _ H). cbn [pl_uses]. unfold lib_uses in U. destruct (String.eqb (y_tag v) "!!null") eqn:Nu.
      - injection U as <-. apply String.eqb_eq in Nu. apply said_other; auto.
      - apply String.eqb_neq in Nu. destruct (y_kind v); try discriminate. destruct (uses_map_good _ [] [] _ uses_good_nil U) as (us & P & G).
        rewrite Q1. now apply said_uses with us. }
    apply String.eqb_neq in Q1.
    assert (S1 : uses_said (ps0 ++ [(y_value k, v)]) (pl_uses b)) by (apply said_other; auto).
    unfold dbind at 1 in H.
    destruct (String.eqb (y_value k) "types").
    { unfold dbind in H. destruct (declare _ _ _ _ _ _ _ p) as [[m| | |] p1]; try discriminate. exact (Go _ _ H S1). }
    destruct (String.eqb (y_value k) "annotationTypes").
    { unfold dbind in H. destruct (declare _ _ _ _ _ _ _ p) as [[m| | |] p1]; try discriminate. exact (Go _ _ H S1). }
    destruct (String.eqb (y_value k) "usage").
    { unfold dbind, dlift in H. destruct (d_string E v); try discriminate. exact (Go _ _ H S1). }
    destruct (is_annotation (y_value k)).
    { unfold dbind in H. destruct (make_ext _ _ _ _ p) as [[m| | |] p1]; try discriminate. exact (Go _ _ H S1). }
    exact (Go _ _ H S1).
Qed.

Lemma said_entries v ps m : pairs_of (y_content v) ps -> uses_said ps m ->
  NoDup (map fst m) /\ forall name value, In (name, value) m <-> uses_entry v name value.
Proof.
  intros P [[-> S]|(u & us & L & Pu & ND & G)].
  - split; [constructor|]. intros name value. split; [intros []|]. intros (ps' & u & us & x & P' & L & _).
    rewrite (pairs_fun _ _ _ P' P) in L. exact (S u L).
  - split; [exact ND|]. intros name value. rewrite G. split.
    + intros (x & Lx & V). exists ps, u, us, x. auto.
    + intros (ps' & u' & us' & x & P' & L' & Pu' & Lx & V). rewrite (pairs_fun _ _ _ P' P) in L'.
      assert (Eu : u' = u) by (eapply last_pair_fun; eauto). rewrite Eu in Pu'.
      rewrite (pairs_fun _ _ _ Pu' Pu) in Lx. eauto.
Qed.

Lemma unmarshal_lib_uses E inc_dt inc_ne loc v p b p' : unmarshal_lib E inc_dt inc_ne loc v p = (Ok b, p') ->
  NoDup (map fst (pl_uses b)) /\ forall name value, In (name, value) (pl_uses b) <-> uses_entry v name value.
Proof.
  intros H. unfold unmarshal_lib in H. destruct (y_kind v); try discriminate.
  destruct (lib_entries_said _ _ _ _ _ _ _ _ _ [] H uses_said_nil) as (ps & P & S). now apply said_entries with ps.
Qed.

Lemma dt_entries_said l : forall u0 r0 u r ps0, dt_entries l u0 r0 = Ok (u, r) -> uses_said ps0 u0 ->
  exists ps, pairs_of l ps /\ uses_said (ps0 ++ ps) u.
Proof.
  induction l as [| |k v l IH] using pair_induction; intros u0 r0 u r ps0 H S.
  - injection H as <- _. exists []. split; [constructor|]. now rewrite app_nil_r.
  - discriminate.
  - assert (Go : forall u1 r1, dt_entries l u1 r1 = Ok (u, r) -> uses_said (ps0 ++ [(y_value k, v)]) u1 ->
      exists ps, pairs_of (k :: v :: l) ps /\ uses_said (ps0 ++ ps) u).
    { intros u1 r1 H1 S1. destruct (IH _ _ _ _ _ H1 S1) as (ps & P & S2). exists ((y_value k, v) :: ps). split; [now constructor|].
      now rewrite <- app_assoc in S2. }
    cbn [dt_entries] in H. destruct (String.eqb (y_value k) "usage") eqn:Q0.
    { apply String.eqb_eq in Q0. apply (Go _ _ H). apply said_other; [left; rewrite Q0; discriminate|exact S]. }
    destruct (String.eqb (y_value k) "uses") eqn:Q1.
    { apply String.eqb_eq in Q1. destruct (String.eqb (y_tag v) "!!null") eqn:Nu.
      - apply String.eqb_eq in Nu. apply (Go _ _ H). apply said_other; auto.
      - apply String.eqb_neq in Nu. unfold rbind in H. destruct (uses_map (y_content v) []) as [m| | |] eqn:U; try discriminate.
        destruct (uses_map_good _ [] [] _ uses_good_nil U) as (us & P & G). apply (Go _ _ H). rewrite Q1. now apply said_uses with us. }
    apply String.eqb_neq in Q1. apply (Go _ _ H). apply said_other; auto.
Qed.

Lemma unmarshal_dt_uses E inc_dt inc_ne loc v p r p' : unmarshal_dt E inc_dt inc_ne loc v p = (Ok r, p') ->
  NoDup (map fst (fst r)) /\ forall name value, In (name, value) (fst r) <-> uses_entry v name value.
Proof.
  intros H. unfold unmarshal_dt in H. destruct (y_kind v); try discriminate.
  unfold dbind at 1, dlift in H. destruct (dt_entries (y_content v) [] []) as [[u rest]| | |] eqn:D; try discriminate.
  unfold dbind in H. destruct (shape_yaml _ _ _ _ _ _ _) as [[x| | |] p1]; try discriminate. injection H as <- _. cbn [fst].
  destruct (dt_entries_said _ _ _ _ _ [] D uses_said_nil) as (ps & P & S). now apply said_entries with ps.
Qed.

(** * Invariants *)

Section Once.
Variable E : denv.
Variable rank : string -> nat.
Let join := e_join (d_y E).
Let readable x := e_read (d_y E) x <> None.
Hypothesis Rank : forall path v, file_tree E path v ->
  (forall x, mentions v x -> readable (join path x) -> rank (join path x) < rank path)
  /\ (forall name value, uses_entry v name value -> readable (join path value) -> rank (join path value) <= rank path).

(** [S] are the files being loaded, whose links are not all set. *)
Definition inv (S : list string) (p : pst) : Prop :=
  one_each p /\ forall path, ~ In path S -> well_linked E p path.

(** What was there stays, and what is new satisfies [B]. *)
Definition mono (B : string -> Prop) (p p' : pst) : Prop :=
  (forall q f, oget q (p_frags p) = Some f -> oget q (p_frags p') = Some f)
  /\ (forall l lib, nth_error (p_libs p) l = Some lib -> nth_error (p_libs p') l = Some lib)
  /\ (forall q, oget q (p_frags p) = None -> oget q (p_frags p') <> None -> B q).

Definition grow S B p p' : Prop := inv S p -> inv S p' /\ mono B p p'.

Lemma mono_refl B p : mono B p p.
Proof. repeat split; auto. congruence. Qed.

Lemma mono_trans B p1 p2 p3 : mono B p1 p2 -> mono B p2 p3 -> mono B p1 p3.
Proof.
  intros (F1 & L1 & N1) (F2 & L2 & N2). split; [auto|]. split; [auto|]. intros q A C.
  destruct (oget q (p_frags p2)) as [f|] eqn:Q; [apply N1; congruence|auto].
Qed.

Lemma mono_weak (B B' : string -> Prop) p p' : (forall q, B q -> B' q) -> mono B p p' -> mono B' p p'.
Proof. intros H (F & L & N). split; [auto|]. split; auto. Qed.

Lemma inv_near S p p' : near p p' -> inv S p -> inv S p'.
Proof.
  intros (L & F & _) [O W]. unfold inv, one_each, well_linked, uses_of in *. rewrite L, F. auto.
Qed.

Lemma grow_near S B p p' : near p p' -> grow S B p p'.
Proof.
  intros N I. split; [now apply inv_near with p|]. destruct N as (L & F & _). unfold mono. rewrite L, F. apply (mono_refl B p).
Qed.

Lemma grow_trans S B p1 p2 p3 : grow S B p1 p2 -> grow S B p2 p3 -> grow S B p1 p3.
Proof. intros G1 G2 I. destruct (G1 I) as [I2 M1]. destruct (G2 I2) as [I3 M2]. split; [exact I3|]. eapply mono_trans; eauto. Qed.

(** A well linked file stays so. *)
Lemma linked_mono B p p' path : well_linked E p path -> one_each p -> mono B p p' -> oget path (p_frags p) <> None -> well_linked E p' path.
Proof.
  intros W (O1 & _) (F & L & _) C f v U Q J T Eu. destruct (oget path (p_frags p)) as [f0|] eqn:Q0; [|congruence].
  assert (f = f0) by (rewrite (F _ _ Q0) in Q; congruence). subst f0.
  assert (Eu0 : uses_of p f = Some U).
  { destruct f as [l|u sh|]; cbn in *; [|exact Eu|exact Eu]. specialize (O1 _ _ Q0).
    destruct (nth_error (p_libs p) l) as [lib|] eqn:N; [|apply nth_error_None in N; lia]. now rewrite (L _ _ N) in Eu. }
  destruct (W f v U Q0 J T Eu0) as [W1 W2]. split; [|exact W2]. intros name value H.
  destruct (W1 name value H) as (l & A & C'). exists l. auto.
Qed.

Lemma file_tree_fun path v v' : file_tree E path v -> file_tree E path v' -> v = v'.
Proof.
  intros (t & a & b & m & R & Y) (t' & a' & b' & m' & R' & Y'). rewrite R in R'. injection R' as <-. congruence.
Qed.

(** ** Libraries *)

(** Linking in the library [l], being loaded as [path]. *)
Lemma link_lib_inv S path l name x p p' : link_lib l name x p = (Ok tt, p') ->
  inv S p -> In path S -> oget path (p_frags p) = Some (FLib l) ->
  exists lib, nth_error (p_libs p) l = Some lib
    /\ nth_error (p_libs p') l = Some (Lib (l_types lib) (l_annots lib) (oset name x (l_uses lib)))
    /\ p_frags p' = p_frags p /\ inv S p' /\ (forall k, k <> l -> nth_error (p_libs p') k = nth_error (p_libs p) k).
Proof.
  intros H I Ip Q. unfold link_lib in H. destruct (nth_error (p_libs p) l) as [lib|] eqn:N; [|discriminate]. injection H as <-.
  exists lib. split; [reflexivity|]. cbn [p_libs p_frags].
  set (lib' := Lib (l_types lib) (l_annots lib) (oset name x (l_uses lib))).
  assert (Lt : l < List.length (p_libs p)) by (apply nth_error_Some; congruence).
  assert (Same : nth_error (upd l lib' (p_libs p)) l = Some lib') by (now apply Heap_lemmas.nth_error_upd_lt).
  assert (Other : forall k, k <> l -> nth_error (upd l lib' (p_libs p)) k = nth_error (p_libs p) k) by (intros; apply Heap_lemmas.nth_error_upd_neq; auto).
  split; [exact Same|]. split; [reflexivity|]. split; [|exact Other].
  destruct I as [(O1 & O2 & O3) W]. split.
  - unfold one_each. cbn [p_libs p_frags]. rewrite Heap_lemmas.upd_length. auto.
  - intros q Nq f v U Qf J T Eu. assert (Nf : f <> FLib l).
    { intros ->. apply Nq. cbn [p_frags] in Qf. rewrite (O3 _ _ _ Qf Q). exact Ip. }
    apply (W q Nq f v U Qf J T). destruct f as [k| |]; cbn in *; auto. rewrite Other in Eu; auto; congruence.
Qed.

(** Loading another library. *)
Definition loads S B (inc_lib : string -> D nat) (x : string) : Prop :=
  forall p l p', inc_lib x p = (Ok l, p') -> inv S p ->
    inv S p' /\ mono B p p' /\ oget x (p_frags p') = Some (FLib l).

Lemma link_uses_inv S B inc_lib path l m : In path S ->
  (forall name value, In (name, value) m -> loads S B inc_lib (join path value)) ->
  NoDup (map fst m) -> forall p p' lib, link_uses E inc_lib path l m p = (Ok true, p') ->
  inv S p -> oget path (p_frags p) = Some (FLib l) -> nth_error (p_libs p) l = Some lib ->
  exists lib', inv S p' /\ nth_error (p_libs p') l = Some lib'
    /\ (forall q f, oget q (p_frags p) = Some f -> oget q (p_frags p') = Some f)
    /\ (forall k lb, k <> l -> nth_error (p_libs p) k = Some lb -> nth_error (p_libs p') k = Some lb)
    /\ (forall q, oget q (p_frags p) = None -> oget q (p_frags p') <> None -> B q)
    /\ (forall name value, In (name, value) m -> exists k, oget name (l_uses lib') = Some (Some k) /\ oget (join path value) (p_frags p') = Some (FLib k))
    /\ (forall name, ~ In name (map fst m) -> oget name (l_uses lib') = oget name (l_uses lib)).
Proof.
  intros Ip. induction m as [|[name value] m IH]; intros Ld ND p p' lib H I Q N.
  - injection H as <-. exists lib. split; [exact I|]. split; [exact N|]. split; [auto|]. split; [auto|]. split; [congruence|]. split; [intros ? ? []|auto].
  - cbn [link_uses] in H. unfold dbind at 1, dtry in H.
    destruct (inc_lib (e_join (d_y E) path value) p) as [[k| | |] p1] eqn:Ei; try discriminate.
    2:{ unfold dbind in H. destruct (link_lib l name None p1) as [[u| | |] p2]; try discriminate.
        destruct (link_uses _ _ _ _ m p2) as [[ok| | |] p3]; discriminate. }
    destruct (Ld name value (or_introl eq_refl) _ _ _ Ei I) as (I1 & (F1 & L1 & N1) & Qk).
    unfold dbind at 1 in H. destruct (link_lib l name (Some k) p1) as [[[]| | |] p2] eqn:El; try discriminate.
    destruct (link_lib_inv S path _ _ _ _ _ El I1 Ip (F1 _ _ Q)) as (lib1 & Na & Nb & Fr & I2 & Oth).
    rewrite (L1 _ _ N) in Na. injection Na as <-.
    unfold dbind in H. destruct (link_uses E inc_lib path l m p2) as [[ok| | |] p3] eqn:Em; try discriminate.
    injection H as -> <-. inversion ND as [|? ? Nin ND']; subst.
    destruct (IH (fun a b I0 => Ld a b (or_intror I0)) ND' p2 p3 _ Em I2 (eq_trans (f_equal (oget path) Fr) (F1 _ _ Q)) Nb) as (lib' & I3 & N3 & F3 & L3 & New3 & U3 & O3).
    exists lib'. split; [exact I3|]. split; [exact N3|]. split; [|split; [|split; [|split]]].
    + intros q f Hq. apply F3. rewrite Fr. auto.
    + intros j lb Nj Hj. apply L3; auto. rewrite Oth by auto. auto.
    + intros q A C. destruct (oget q (p_frags p1)) as [f|] eqn:Q1; [apply N1; congruence|]. apply New3; [now rewrite Fr|auto].
    + intros nm vl [Eq|In0].
      * injection Eq as <- <-. exists k. split; [|apply F3; rewrite Fr; exact Qk].
        rewrite O3 by exact Nin. cbn [l_uses]. apply Pipeline_proofs.oget_oset_same.
      * exact (U3 nm vl In0).
    + intros nm Nn. cbn in Nn. rewrite O3 by tauto. cbn [l_uses]. apply Pipeline_proofs.oget_oset_other. intuition congruence.
Qed.

Lemma unlinked_some m name x : oget name (unlinked m) = Some x -> In name (map fst m).
Proof.
  unfold unlinked. induction m as [|[k v] m IH]; cbn; [discriminate|]. destruct (String.eqb name k) eqn:Q; [|auto].
  apply String.eqb_eq in Q. auto.
Qed.

(** Decoding a library: [path] is not in the cache. *)
Lemma decode_lib_inv S inc_dt inc_ne inc_lib text path :
  e_read (d_y E) path = Some text ->
  (forall x, readable x -> rank x < rank path ->
     along (grow S (fun q => rank q < rank path)) (inc_dt x) /\ along (grow S (fun q => rank q < rank path)) (inc_ne x)) ->
  (forall x p, ~ readable x -> forall a p', inc_dt x p = (Ok a, p') -> p' = p) ->
  (forall x p, ~ readable x -> forall a p', inc_ne x p = (Ok a, p') -> p' = p) ->
  (forall x, readable x -> rank x <= rank path -> loads (path :: S) (fun q => rank q <= rank path) inc_lib x) ->
  (forall x p, ~ readable x -> forall l p', inc_lib x p = (Ok l, p') -> p' = p /\ oget x (p_frags p) = Some (FLib l)) ->
  forall p l p', decode_lib E inc_dt inc_ne inc_lib text path p = (Ok l, p') -> inv S p -> oget path (p_frags p) = None ->
    inv S p' /\ mono (fun q => rank q <= rank path) p p' /\ oget path (p_frags p') = Some (FLib l).
Proof.
  intros Rd Inc Udt Une Ld Uld p l p' H I Q. unfold decode_lib in H. unfold dbind at 1, dlift in H.
  destruct (document E text) as [[v|]| | |] eqn:D; try discriminate.
  assert (T : file_tree E path v).
  { destruct (document_tree E text v D) as (tag & value & more & Y). exists text, tag, value, more. auto. }
  destruct (Rank path v T) as [RI RU].
  set (B0 := fun q => rank q < rank path) in *. set (B := fun q => rank q <= rank path) in *.
  unfold dbind at 1 in H. destruct (unmarshal_lib E inc_dt inc_ne path v p) as [[b| | |] p1] eqn:U; try discriminate.
  assert (G1 : grow S B0 p p1).
  { refine (al_unmarshal_lib (grow S B0) (close_near _ (grow_near S B0)) (grow_trans S B0) E inc_dt inc_ne path v _ _ _ p b p1 U).
    1,2: intros nm x q u q' Hq; apply grow_near; (apply near_type in Hq + apply near_annot in Hq); exact Hq.
    intros t W Kt Tt. assert (Me : mentions v (y_value t)) by (exists t; auto).
    destruct (e_read (d_y E) (e_join (d_y E) path (y_value t))) as [z|] eqn:Rz.
    - assert (Ry : readable (join path (y_value t))) by (unfold readable, join; congruence). apply Inc; auto.
    - assert (Ry : ~ readable (join path (y_value t))) by (unfold readable, join; congruence).
      split; intros q a q' Hq; [rewrite (Udt _ _ Ry _ _ Hq)|rewrite (Une _ _ Ry _ _ Hq)]; apply grow_near; repeat split. }
  destruct (G1 I) as [I1 M1]. destruct (unmarshal_lib_uses _ _ _ _ _ _ _ _ U) as [ND Us].
  assert (Q1 : oget path (p_frags p1) = None).
  { destruct (oget path (p_frags p1)) as [f|] eqn:Q1; [|reflexivity]. destruct M1 as (_ & _ & New). assert (X : B0 path) by (apply New; congruence).
    unfold B0 in X. lia. }
  unfold dbind at 1, new_lib in H. unfold dbind at 1, put_fragment in H. cbn [p_st p_libs p_frags p_dts p_exts p_types p_annots p_todo p_facets] in H. rewrite Q1 in H.
  set (l0 := List.length (p_libs p1)) in *. set (lib0 := Lib (pl_types b) (pl_annots b) (unlinked (pl_uses b))) in *.
  set (p2 := PSt (p_st p1) (p_libs p1 ++ [lib0]) (p_frags p1 ++ [(path, FLib l0)]) (p_dts p1) (p_exts p1) (p_types p1) (p_annots p1) (p_todo p1) (p_facets p1)) in *.
  assert (Q2 : oget path (p_frags p2) = Some (FLib l0)) by (cbn; now rewrite oget_snoc, Q1, String.eqb_refl).
  assert (Nl : nth_error (p_libs p2) l0 = Some lib0). { cbn. rewrite nth_error_app2 by (unfold l0; lia). unfold l0. now rewrite Nat.sub_diag. }
  assert (M2 : mono B p1 p2).
  { split; [|split].
    - intros q f Hq. cbn. rewrite oget_snoc, Hq. reflexivity.
    - intros k lb Hk. cbn. rewrite nth_error_app1; [exact Hk|]. apply nth_error_Some. congruence.
    - intros q A C. cbn in C. rewrite oget_snoc, A in C. destruct (String.eqb q path) eqn:Qp; [|congruence].
      apply String.eqb_eq in Qp. subst q. unfold B. lia. }
  assert (I2 : inv (path :: S) p2).
  { destruct I1 as [(O1 & O2 & O3) W]. assert (Get : forall q k, oget q (p_frags p2) = Some (FLib k) -> (q = path /\ k = l0) \/ (oget q (p_frags p1) = Some (FLib k) /\ k < l0)).
    { intros q k Hq. cbn in Hq. rewrite oget_snoc in Hq. destruct (oget q (p_frags p1)) as [f|] eqn:Qf.
      - injection Hq as ->. right. split; [reflexivity|]. exact (O1 _ _ Qf).
      - destruct (String.eqb q path) eqn:Qp; [|discriminate]. injection Hq as <-. apply String.eqb_eq in Qp. auto. }
    split; [split; [|split]|].
    - intros q k Hq. cbn [p_libs p2]. rewrite app_length. cbn. destruct (Get _ _ Hq) as [[_ ->]|[_ Lt]]; unfold l0 in *; lia.
    - intros k Lk. cbn [p_libs p2] in Lk. rewrite app_length in Lk. cbn in Lk. destruct (Nat.eq_dec k l0) as [->|Nk]; [exists path; exact Q2|].
      destruct (O2 k) as (q & Hq); [unfold l0 in *; lia|]. exists q. cbn. rewrite oget_snoc, Hq. reflexivity.
    - intros q q' k Hq Hq'. destruct (Get _ _ Hq) as [[-> ->]|[A Lt]]; destruct (Get _ _ Hq') as [[-> Ek]|[A' Lt']]; auto; try lia.
      exact (O3 _ _ _ A A').
    - intros q Nq. cbn in Nq. assert (Wq : well_linked E p1 q) by (apply W; tauto).
      destruct (oget q (p_frags p1)) as [f|] eqn:Qf.
      + apply (linked_mono B p1); auto; [split; auto|congruence].
      + intros f v0 U0 Hf. cbn in Hf. rewrite oget_snoc, Qf in Hf. destruct (String.eqb q path) eqn:Qp; [|discriminate].
        apply String.eqb_eq in Qp. subst q. tauto. }
  unfold dbind in H. destruct (link_uses E inc_lib path l0 (pl_uses b) p2) as [[ok| | |] p3] eqn:Lk; try discriminate.
  destruct ok; [|discriminate]. unfold dret in H. injection H as <- <-.
  assert (Ld' : forall name value, In (name, value) (pl_uses b) -> loads (path :: S) B inc_lib (join path value)).
  { intros name value In0. destruct (e_read (d_y E) (join path value)) as [z|] eqn:Rz.
    - assert (Ry : readable (join path value)) by (unfold readable; congruence). apply Ld; auto. apply (RU name); auto. now apply Us.
    - assert (Ry : ~ readable (join path value)) by (unfold readable; congruence). intros q k q' Hq Iq.
      destruct (Uld _ _ Ry _ _ Hq) as [-> C]. split; [exact Iq|]. split; [apply mono_refl|exact C]. }
  destruct (link_uses_inv (path :: S) B inc_lib path l0 (pl_uses b) (or_introl eq_refl) Ld' ND p2 p3 lib0 Lk I2 Q2 Nl)
    as (lib' & I3 & N3 & F3 & L3 & New3 & U3 & O3).
  split; [|split; [|auto]].
  - destruct I3 as [Oe W]. split; [exact Oe|]. intros q Nq. destruct (String.eqb q path) eqn:Qp.
    + apply String.eqb_eq in Qp. subst q. intros f v0 U0 Hf _ T0 Eu. rewrite (F3 _ _ Q2) in Hf. injection Hf as <-.
      cbn in Eu. rewrite N3 in Eu. injection Eu as <-. rewrite (file_tree_fun _ _ _ T0 T). split.
      * intros name value Ue. apply Us in Ue. exact (U3 _ _ Ue).
      * intros name Hn. destruct (in_dec string_dec name (map fst (pl_uses b))) as [In0|Nin].
        -- apply in_map_iff in In0. destruct In0 as ([n0 v1] & En & In0). cbn in En. subst n0. exists v1. now apply Us.
        -- rewrite O3 in Hn by exact Nin. destruct (oget name (l_uses lib0)) as [x|] eqn:Ox; [|congruence].
           destruct Nin. exact (unlinked_some _ _ _ Ox).
    + apply String.eqb_neq in Qp. apply W. cbn. intuition congruence.
  - assert (M1' : mono B p p1) by (apply (mono_weak B0); auto; unfold B0, B; intros; lia).
    apply (mono_trans B p p1); auto. destruct M2 as (F2 & L2 & N2). split; [|split].
    + auto.
    + intros k lb Hk. apply L3; auto. assert (k < l0) by (apply nth_error_Some; congruence). lia.
    + intros q A C. destruct (oget q (p_frags p2)) as [f|] eqn:Qf; [apply N2; congruence|auto].
Qed.

(** ** Data types *)

Lemma link_dt_inv S path name x u sh p p' : link_dt path true name x p = (Ok tt, p') ->
  inv S p -> In path S -> oget path (p_frags p) = Some (FDT u sh) ->
  oget path (p_frags p') = Some (FDT (oset name x u) sh) /\ p_libs p' = p_libs p /\ inv S p'
  /\ (forall q, q <> path -> oget q (p_frags p') = oget q (p_frags p)).
Proof.
  intros H I Ip Q. unfold link_dt in H. rewrite Q in H. injection H as <-. cbn [p_frags p_libs].
  set (fr := oset path (FDT (oset name x u) sh) (p_frags p)).
  assert (Same : oget path fr = Some (FDT (oset name x u) sh)) by apply Pipeline_proofs.oget_oset_same.
  assert (Other : forall q, q <> path -> oget q fr = oget q (p_frags p)) by (intros; now apply Pipeline_proofs.oget_oset_other).
  assert (Lb : forall q k, oget q fr = Some (FLib k) <-> oget q (p_frags p) = Some (FLib k)).
  { intros q k. destruct (String.eqb q path) eqn:Qp.
    - apply String.eqb_eq in Qp. subst q. rewrite Same, Q. split; discriminate.
    - apply String.eqb_neq in Qp. now rewrite Other. }
  split; [exact Same|]. split; [reflexivity|]. split; [|exact Other].
  destruct I as [(O1 & O2 & O3) W]. split; [split; [|split]|]; cbn [p_frags p_libs].
  - intros q k Hq. apply Lb in Hq. eauto.
  - intros k Hk. destruct (O2 k Hk) as (q & Hq). exists q. now apply Lb.
  - intros q q' k Hq Hq'. apply Lb in Hq. apply Lb in Hq'. eauto.
  - intros q Nq f v U Hf J T Eu. cbn [p_frags] in Hf. assert (Nqp : q <> path) by congruence. rewrite Other in Hf by exact Nqp.
    destruct (W q Nq f v U Hf J T Eu) as [W1 W2]. split; [|exact W2]. intros nm vl Hu. destruct (W1 nm vl Hu) as (k & A & C).
    exists k. split; [exact A|]. cbn [p_frags]. now apply Lb.
Qed.

Lemma link_dt_uses_inv S B inc_lib path m : In path S ->
  (forall name value, In (name, value) m -> loads S B inc_lib (join path value)) ->
  NoDup (map fst m) -> forall p p' u sh, link_dt_uses E inc_lib path true m p = (Ok tt, p') ->
  inv S p -> oget path (p_frags p) = Some (FDT u sh) ->
  exists u', inv S p' /\ oget path (p_frags p') = Some (FDT u' sh)
    /\ (forall q f, q <> path -> oget q (p_frags p) = Some f -> oget q (p_frags p') = Some f)
    /\ (forall k lb, nth_error (p_libs p) k = Some lb -> nth_error (p_libs p') k = Some lb)
    /\ (forall q, oget q (p_frags p) = None -> oget q (p_frags p') <> None -> B q)
    /\ (forall name value, In (name, value) m -> exists k, oget name u' = Some (Some k) /\ oget (join path value) (p_frags p') = Some (FLib k))
    /\ (forall name, ~ In name (map fst m) -> oget name u' = oget name u).
Proof.
  intros Ip. induction m as [|[name value] m IH]; intros Ld ND p p' u sh H I Q.
  - injection H as <-. exists u. split; [exact I|]. split; [exact Q|]. split; [auto|]. split; [auto|]. split; [congruence|]. split; [intros ? ? []|auto].
  - cbn [link_dt_uses] in H. unfold dbind at 1 in H.
    destruct (inc_lib (e_join (d_y E) path value) p) as [[k| | |] p1] eqn:Ei; try discriminate.
    destruct (Ld name value (or_introl eq_refl) _ _ _ Ei I) as (I1 & (F1 & L1 & N1) & Qk).
    unfold dbind at 1 in H. destruct (link_dt path true name (Some k) p1) as [[[]| | |] p2] eqn:El; try discriminate.
    destruct (link_dt_inv S path _ _ _ _ _ _ El I1 Ip (F1 _ _ Q)) as (Q2 & Lb & I2 & Oth).
    inversion ND as [|? ? Nin ND']; subst.
    destruct (IH (fun a b I0 => Ld a b (or_intror I0)) ND' p2 p' _ _ H I2 Q2) as (u' & I3 & Q3 & F3 & L3 & New3 & U3 & O3).
    assert (Np : forall q z, oget q (p_frags p1) = Some (FLib z) -> q <> path).
    { intros q z Hq ->. rewrite (F1 _ _ Q) in Hq. discriminate. }
    exists u'. split; [exact I3|]. split; [exact Q3|]. split; [|split; [|split; [|split]]].
    + intros q f Nq Hq. apply F3; auto. rewrite Oth; auto.
    + intros j lb Hj. apply L3. rewrite Lb. auto.
    + intros q A C. destruct (oget q (p_frags p1)) as [f|] eqn:Q1; [apply N1; congruence|].
      apply New3; [|auto]. rewrite Oth; [exact Q1|]. intros ->. rewrite (F1 _ _ Q) in Q1. discriminate.
    + intros nm vl [Eq|In0].
      * injection Eq as <- <-. exists k. split; [rewrite O3 by exact Nin; apply Pipeline_proofs.oget_oset_same|].
        apply F3; [exact (Np _ _ Qk)|]. rewrite Oth; [exact Qk|exact (Np _ _ Qk)].
      * exact (U3 nm vl In0).
    + intros nm Nn. cbn in Nn. rewrite O3 by tauto. apply Pipeline_proofs.oget_oset_other. intuition congruence.
Qed.

Lemma json_calm R inc_dt inc_ne path text : calm R E inc_dt inc_ne path (json_document text).
Proof.
  intros t W Kt Tt. exfalso. unfold json_document in W. inversion W as [|? ? ? ? x I W1]; subst; [discriminate Kt|].
  destruct I as [<-|[<-|[]]]; inversion W1 as [|? ? ? ? x I W2]; subst; try destruct I; cbn in Tt; congruence.
Qed.

Lemma json_no_uses text name value : ~ uses_entry (json_document text) name value.
Proof.
  intros (ps & u & us & x & P & L & _). cbn in P. inversion P as [|k v l ps' P']; subst. inversion P'; subst.
  destruct L as (b & a & Eq & _). cbn in Eq. destruct b as [|[] [|]]; discriminate.
Qed.

Lemma decode_dt_inv S inc_dt inc_ne inc_lib text path :
  e_read (d_y E) path = Some text ->
  (forall x, readable x -> rank x < rank path ->
     along (grow S (fun q => rank q < rank path)) (inc_dt x) /\ along (grow S (fun q => rank q < rank path)) (inc_ne x)) ->
  (forall x p, ~ readable x -> forall a p', inc_dt x p = (Ok a, p') -> p' = p) ->
  (forall x p, ~ readable x -> forall a p', inc_ne x p = (Ok a, p') -> p' = p) ->
  (forall x, readable x -> rank x <= rank path -> loads (path :: S) (fun q => rank q <= rank path) inc_lib x) ->
  (forall x p, ~ readable x -> forall l p', inc_lib x p = (Ok l, p') -> p' = p /\ oget x (p_frags p) = Some (FLib l)) ->
  forall p a p', decode_dt E inc_dt inc_ne inc_lib text path p = (Ok a, p') -> inv S p -> oget path (p_frags p) = None ->
    inv S p' /\ mono (fun q => rank q <= rank path) p p'.
Proof.
  intros Rd Inc Udt Une Ld Uld p a p' H I Q. unfold decode_dt in H. unfold dbind at 1 in H.
  destruct ((if has_suffix ".json" path then dret (Some (json_document text)) else dlift (document E text)) p) as [[[v|]| | |] p0] eqn:D; try discriminate.
  assert (P0 : p0 = p). { destruct (has_suffix ".json" path); unfold dret, dlift in D; congruence. } subst p0.
  assert (T : (has_suffix ".json" path = true /\ v = json_document text) \/ file_tree E path v).
  { destruct (has_suffix ".json" path); unfold dret, dlift in D; [left; split; [reflexivity|congruence]|right].
    destruct (document_tree E text v) as (tag & value & more & Y); [congruence|]. exists text, tag, value, more. auto. }
  set (B0 := fun q => rank q < rank path) in *. set (B := fun q => rank q <= rank path) in *.
  unfold dbind at 1 in H. destruct (unmarshal_dt E inc_dt inc_ne path v p) as [[r| | |] p1] eqn:U; try discriminate.
  assert (G1 : grow S B0 p p1).
  { refine (al_unmarshal_dt (grow S B0) (close_near _ (grow_near S B0)) (grow_trans S B0) E inc_dt inc_ne path v _ p r p1 U).
    destruct T as [[_ ->]|T]; [apply json_calm|]. destruct (Rank path v T) as [RI RU].
    intros t W Kt Tt. assert (Me : mentions v (y_value t)) by (exists t; auto).
    destruct (e_read (d_y E) (e_join (d_y E) path (y_value t))) as [z|] eqn:Rz.
    - assert (Ry : readable (join path (y_value t))) by (unfold readable, join; congruence). apply Inc; auto.
    - assert (Ry : ~ readable (join path (y_value t))) by (unfold readable, join; congruence).
      split; intros q a0 q' Hq; [rewrite (Udt _ _ Ry _ _ Hq)|rewrite (Une _ _ Ry _ _ Hq)]; apply grow_near; repeat split. }
  destruct (G1 I) as [I1 M1]. destruct (unmarshal_dt_uses _ _ _ _ _ _ _ _ U) as [ND Us].
  assert (Q1 : oget path (p_frags p1) = None).
  { destruct (oget path (p_frags p1)) as [f|] eqn:Q1; [|reflexivity]. destruct M1 as (_ & _ & New). assert (X : B0 path) by (apply New; congruence).
    unfold B0 in X. lia. }
  unfold dbind at 1, dget in H. rewrite Q1 in H. unfold dbind at 1 in H.
  destruct (hp (alloc (CDT (Some (snd r)))) p1) as [[ad| | |] p1'] eqn:Al; try discriminate.
  assert (Ne : near p1 p1'). { unfold hp in Al. destruct (alloc (CDT (Some (snd r))) (p_st p1)). injection Al as _ <-. repeat split. }
  destruct Ne as (Nl & Nf & Nd).
  unfold dbind at 1, put_fragment in H. rewrite Nf, Q1 in H.
  cbn [p_st p_libs p_frags p_dts p_exts p_types p_annots p_todo p_facets] in H.
  unfold dbind in H.
  match type of H with context [link_dt_uses _ _ _ _ _ ?q] => set (p2 := q) in * end.
  set (f0 := FDT (unlinked (fst r)) (Some (snd r))) in *.
  assert (Fr2 : p_frags p2 = p_frags p1 ++ [(path, f0)]) by (reflexivity).
  assert (Lb2 : p_libs p2 = p_libs p1) by (cbn; exact Nl).
  assert (Q2 : oget path (p_frags p2) = Some f0) by (now rewrite Fr2, oget_snoc, Q1, String.eqb_refl).
  assert (M2 : mono B p1 p2).
  { split; [|split].
    - intros q f Hq. rewrite Fr2, oget_snoc, Hq. reflexivity.
    - intros k lb Hk. now rewrite Lb2.
    - intros q A C. rewrite Fr2, oget_snoc, A in C. destruct (String.eqb q path) eqn:Qp; [|congruence].
      apply String.eqb_eq in Qp. subst q. unfold B. lia. }
  assert (I2 : inv (path :: S) p2).
  { destruct I1 as [(O1 & O2 & O3) W]. assert (Get : forall q k, oget q (p_frags p2) = Some (FLib k) <-> oget q (p_frags p1) = Some (FLib k)).
    { intros q k. rewrite Fr2, oget_snoc. destruct (oget q (p_frags p1)) as [f|] eqn:Qf; [tauto|].
      destruct (String.eqb q path); split; discriminate. }
    split; [split; [|split]|].
    - intros q k Hq. rewrite Lb2. apply Get in Hq. eauto.
    - intros k Lk. rewrite Lb2 in Lk. destruct (O2 k Lk) as (q & Hq). exists q. now apply Get.
    - intros q q' k Hq Hq'. apply Get in Hq. apply Get in Hq'. eauto.
    - intros q Nq. cbn in Nq. assert (Wq : well_linked E p1 q) by (apply W; tauto).
      destruct (oget q (p_frags p1)) as [f|] eqn:Qf.
      + apply (linked_mono B p1); auto; [split; auto|congruence].
      + intros f v0 U0 Hf. rewrite Fr2, oget_snoc, Qf in Hf. destruct (String.eqb q path) eqn:Qp; [|discriminate].
        apply String.eqb_eq in Qp. subst q. tauto. }
  destruct (link_dt_uses E inc_lib path true (fst r) p2) as [[[]| | |] p3] eqn:Lk; try discriminate.
  unfold dret in H. injection H as <- <-.
  assert (Ld' : forall name value, In (name, value) (fst r) -> loads (path :: S) B inc_lib (join path value)).
  { intros name value In0. apply Us in In0. destruct T as [[_ ->]|T]; [destruct (json_no_uses _ _ _ In0)|].
    destruct (Rank path v T) as [RI RU]. destruct (e_read (d_y E) (join path value)) as [z|] eqn:Rz.
    - assert (Ry : readable (join path value)) by (unfold readable; congruence). apply Ld; auto. exact (RU name value In0 Ry).
    - assert (Ry : ~ readable (join path value)) by (unfold readable; congruence). intros q k q' Hq Iq.
      destruct (Uld _ _ Ry _ _ Hq) as [-> C]. split; [exact Iq|]. split; [apply mono_refl|exact C]. }
  destruct (link_dt_uses_inv (path :: S) B inc_lib path (fst r) (or_introl eq_refl) Ld' ND p2 p3 _ _ Lk I2 Q2)
    as (u' & I3 & Q3 & F3 & L3 & New3 & U3 & O3).
  split.
  - destruct I3 as [Oe W]. split; [exact Oe|]. intros q Nq. destruct (String.eqb q path) eqn:Qp.
    + apply String.eqb_eq in Qp. subst q. intros f v0 U0 Hf J T0 Eu. rewrite Q3 in Hf. injection Hf as <-.
      cbn in Eu. injection Eu as <-. destruct T as [[Sx ->]|T]; [destruct (J Sx)|]. rewrite (file_tree_fun _ _ _ T0 T). split.
      * intros name value Ue. apply Us in Ue. exact (U3 _ _ Ue).
      * intros name Hn. destruct (in_dec string_dec name (map fst (fst r))) as [In0|Nin].
        -- apply in_map_iff in In0. destruct In0 as ([n0 v1] & En & In0). cbn in En. subst n0. exists v1. now apply Us.
        -- rewrite O3 in Hn by exact Nin. destruct (oget name (unlinked (fst r))) as [x|] eqn:Ox; [|congruence].
           destruct Nin. exact (unlinked_some _ _ _ Ox).
    + apply String.eqb_neq in Qp. apply W. cbn. intuition congruence.
  - assert (M1' : mono B p p1) by (apply (mono_weak B0); auto; unfold B0, B; intros; lia).
    apply (mono_trans B p p1); auto. destruct M2 as (F2 & L2 & N2). split; [|split].
    + intros q f Hq. apply F3; auto. intros ->. congruence.
    + auto.
    + intros q A C. destruct (oget q (p_frags p2)) as [f|] eqn:Qf; [apply N2; congruence|auto].
Qed.

(** ** Named examples *)

Lemma put_ne_grow S (B : string -> Prop) x p p' u : B x -> put_fragment x FNE None p = (Ok u, p') -> grow S B p p'.
Proof.
  intros Bx H I. unfold put_fragment in H. destruct (oget x (p_frags p)) as [f|] eqn:Q; injection H as _ <-.
  { split; [exact I|apply mono_refl]. }
  assert (M : mono B p (PSt (p_st p) (p_libs p) (p_frags p ++ [(x, FNE)]) (p_dts p) (p_exts p) (p_types p) (p_annots p) (p_todo p) (p_facets p))).
  { split; [|split]; cbn.
    - intros q f Hq. now rewrite oget_snoc, Hq.
    - auto.
    - intros q A C. rewrite oget_snoc, A in C. destruct (String.eqb q x) eqn:Qx; [|congruence]. apply String.eqb_eq in Qx. now subst. }
  split; [|exact M]. destruct I as [(O1 & O2 & O3) W].
  assert (Get : forall q k, oget q (p_frags p ++ [(x, FNE)]) = Some (FLib k) <-> oget q (p_frags p) = Some (FLib k)).
  { intros q k. rewrite oget_snoc. destruct (oget q (p_frags p)) as [f|] eqn:Qf; [tauto|]. destruct (String.eqb q x); split; discriminate. }
  split; [split; [|split]|]; cbn [p_frags p_libs].
  - intros q k Hq. apply Get in Hq. eauto.
  - intros k Hk. destruct (O2 k Hk) as (q & Hq). exists q. now apply Get.
  - intros q q' k Hq Hq'. apply Get in Hq. apply Get in Hq'. eauto.
  - intros q Nq. destruct (oget q (p_frags p)) as [f|] eqn:Qf.
    + apply (linked_mono B p); auto; [split; auto|congruence].
    + intros f v U Hf _ _ Eu. cbn in Hf. rewrite oget_snoc, Qf in Hf. destruct (String.eqb q x); [|discriminate]. injection Hf as <-. discriminate.
Qed.

Lemma decode_ne_grow S (B : string -> Prop) text x : B x -> along (grow S B) (decode_ne E text x).
Proof.
  intros Bx. unfold decode_ne.
  assert (P : along (grow S B) (put_fragment x FNE None)) by (intros p u p' H; exact (put_ne_grow S B x p p' u Bx H)).
  apply (al_bind _ (grow_trans S B)); [apply (al_lift _ (close_near _ (grow_near S B)))|]. intros [v|]; [|exact P].
  destruct (y_kind v); try apply (al_lift _ (close_near _ (grow_near S B))).
  apply (al_bind _ (grow_trans S B)); [apply (al_example_map _ (close_near _ (grow_near S B)) (grow_trans S B))|]. intros. exact P.
Qed.

Lemma parse_ne_grow S (B : string -> Prop) x : B x -> along (grow S B) (parse_ne E x).
Proof.
  intros Bx. unfold parse_ne. apply (al_bind _ (grow_trans S B)); [apply (al_get _ (close_near _ (grow_near S B)))|]. intros p.
  destruct (oget x (p_frags p)) as [[]|]; try apply (al_lift _ (close_near _ (grow_near S B))); try apply (al_ret _ (close_near _ (grow_near S B))).
  apply (al_bind _ (grow_trans S B)); [apply (al_lift _ (close_near _ (grow_near S B)))|]. intros text. now apply decode_ne_grow.
Qed.

Lemma open_unreadable x k text : ~ readable x -> open_fragment E x k <> Ok text.
Proof. unfold readable, open_fragment. destruct (e_read (d_y E) x); [intros N; exfalso; apply N; discriminate|discriminate]. Qed.

Lemma ne_unreadable x p : ~ readable x -> forall a p', parse_ne E x p = (Ok a, p') -> p' = p.
Proof.
  intros N a p' H. unfold parse_ne, dbind, dget in H. destruct (oget x (p_frags p)) as [[]|]; try discriminate; [unfold dret in H; congruence|].
  unfold dlift in H. destruct (open_fragment E x KNamedExample) eqn:O; try discriminate. destruct (open_unreadable _ _ _ N O).
Qed.

Lemma dt_unreadable n x p : ~ readable x -> forall a p', parse_dt E n x p = (Ok a, p') -> p' = p.
Proof.
  intros N a p' H. destruct n as [|n]; [discriminate|]. rewrite parse_dt_eq in H.
  destruct (oget x (p_frags p)) as [[]|]; try discriminate; [destruct (oget x (p_dts p)); congruence|].
  unfold dbind, dlift in H. destruct (open_fragment E x KDataType) eqn:O; try discriminate. destruct (open_unreadable _ _ _ N O).
Qed.

Lemma lib_unreadable n x p : ~ readable x -> forall l p', parse_lib E n x p = (Ok l, p') -> p' = p /\ oget x (p_frags p) = Some (FLib l).
Proof.
  intros N a p' H. destruct n as [|n]; [discriminate|]. rewrite parse_lib_eq in H.
  destruct (oget x (p_frags p)) as [[]|]; try discriminate; [split; congruence|].
  unfold dbind, dlift in H. destruct (open_fragment E x KLibrary) eqn:O; try discriminate. destruct (open_unreadable _ _ _ N O).
Qed.

(** ** All files *)

Lemma files_once n : forall x,
  (forall S, along (grow S (fun q => rank q <= rank x)) (parse_dt E n x))
  /\ (forall S, loads S (fun q => rank q <= rank x) (parse_lib E n) x).
Proof.
  induction n as [|n IH]; intros x; [split; intros S p a p' H; discriminate|].
  assert (Inc : forall S y, readable y -> rank y < rank x ->
     along (grow S (fun q => rank q < rank x)) (parse_dt E n y) /\ along (grow S (fun q => rank q < rank x)) (parse_ne E y)).
  { intros S y Ry Lt. split; [|now apply parse_ne_grow]. intros p a p' H I. destruct (proj1 (IH y) S p a p' H I) as [I' M].
    split; [exact I'|]. apply (mono_weak (fun q => rank q <= rank y)); [|exact M]. intros; lia. }
  assert (Ld : forall S y, readable y -> rank y <= rank x -> loads S (fun q => rank q <= rank x) (parse_lib E n) y).
  { intros S y Ry Le p l p' H I. destruct (proj2 (IH y) S p l p' H I) as (I' & M & Q). split; [exact I'|]. split; [|exact Q].
    apply (mono_weak (fun q => rank q <= rank y)); [|exact M]. intros; lia. }
  split; intros S p a p' H.
  - intros I. rewrite parse_dt_eq in H. destruct (oget x (p_frags p)) as [[]|] eqn:Q; try discriminate.
    { destruct (oget x (p_dts p)); [|discriminate]. injection H as _ <-. split; [exact I|apply mono_refl]. }
    unfold dbind at 1, dlift in H. destruct (open_fragment E x KDataType) as [text| | |] eqn:O; try discriminate.
    exact (decode_dt_inv S _ _ _ text x (open_readable E x _ _ O) (Inc S) (fun y q N => dt_unreadable n y q N) ne_unreadable
             (Ld (x :: S)) (fun y q N => lib_unreadable n y q N) p a p' H I Q).
  - intros I. rewrite parse_lib_eq in H. destruct (oget x (p_frags p)) as [[l| |]|] eqn:Q; try discriminate.
    { injection H as <- <-. split; [exact I|]. split; [apply mono_refl|exact Q]. }
    unfold dbind at 1, dlift in H. destruct (open_fragment E x KLibrary) as [text| | |] eqn:O; try discriminate.
    exact (decode_lib_inv S _ _ _ text x (open_readable E x _ _ O) (Inc S) (fun y q N => dt_unreadable n y q N) ne_unreadable
             (Ld (x :: S)) (fun y q N => lib_unreadable n y q N) p a p' H I Q).
Qed.

Lemma inv_new : inv [] new_raml.
Proof.
  split; [split; [|split]|]; cbn.
  - discriminate.
  - intros l L. lia.
  - discriminate.
  - intros path _ f v U Hf. discriminate.
Qed.

Lemma fragment_once n text path ep p : e_read (d_y E) path = Some text ->
  decode_fragment E n text path new_raml = (Ok ep, p) ->
  one_each p /\ (forall q, well_linked E p q) /\ (forall l, ep = ELib l -> oget path (p_frags p) = Some (FLib l)).
Proof.
  intros Rdp H.
  assert (Done : forall p', inv [] p' -> one_each p' /\ forall q, well_linked E p' q) by (intros p' [O W]; split; auto).
  assert (Inc : forall S y, readable y -> rank y < rank path ->
     along (grow S (fun q => rank q < rank path)) (parse_dt E n y) /\ along (grow S (fun q => rank q < rank path)) (parse_ne E y)).
  { intros S y Ry Lt. split; [|now apply parse_ne_grow]. intros p0 a p' H0 I. destruct (proj1 (files_once n y) S p0 a p' H0 I) as [I' M].
    split; [exact I'|]. apply (mono_weak (fun q => rank q <= rank y)); [|exact M]. intros; lia. }
  assert (Ld : forall S y, readable y -> rank y <= rank path -> loads S (fun q => rank q <= rank path) (parse_lib E n) y).
  { intros S y Ry Le p0 l p' H0 I. destruct (proj2 (files_once n y) S p0 l p' H0 I) as (I' & M & Q). split; [exact I'|]. split; [|exact Q].
    apply (mono_weak (fun q => rank q <= rank y)); [|exact M]. intros; lia. }
  unfold decode_fragment in H. destruct (read_head (Rd text 0)) as [[head| | |] rd]; try discriminate.
  destruct (identify_fragment head) as [[]| | |]; try discriminate; unfold dbind at 1 in H.
  - destruct (decode_lib E (parse_dt E n) (parse_ne E) (parse_lib E n) text path new_raml) as [[l| | |] p1] eqn:D; try discriminate.
    injection H as <- <-.
    destruct (decode_lib_inv [] _ _ _ text path Rdp (Inc []) (fun y q N => dt_unreadable n y q N) ne_unreadable
             (Ld [path]) (fun y q N => lib_unreadable n y q N) _ _ _ D inv_new eq_refl) as (I & M & Q).
    destruct (Done _ I) as [O W]. split; [exact O|]. split; [exact W|]. intros l' El. injection El as <-. exact Q.
  - destruct (decode_dt E (parse_dt E n) (parse_ne E) (parse_lib E n) text path new_raml) as [[a| | |] p1] eqn:D; try discriminate.
    injection H as <- <-.
    destruct (decode_dt_inv [] _ _ _ text path Rdp (Inc []) (fun y q N => dt_unreadable n y q N) ne_unreadable
             (Ld [path]) (fun y q N => lib_unreadable n y q N) _ _ _ D inv_new eq_refl) as (I & M).
    destruct (Done _ I) as [O W]. split; [exact O|]. split; [exact W|]. discriminate.
  - destruct (decode_ne E text path new_raml) as [[a| | |] p1] eqn:D; try discriminate.
    injection H as <- <-.
    destruct (decode_ne_grow [] (fun _ => True) text path Logic.I _ _ _ D inv_new) as (I & _).
    destruct (Done _ I) as [O W]. split; [exact O|]. split; [exact W|]. discriminate.
Qed.
End Once.
