(** The index of declared types by file and name after parsing (C69). *)
From Coq Require Import ZArith List String Bool Ascii Lia.
From Verif Require Import Base Scalars Heap Rdt Resolve Names Yaml Spec_Yaml Yaml_proofs Pipeline Decode Parse Spec_Parse Parse_ends Parse_walk.
From Verif Require Pipeline_proofs Parse_once Heap_lemmas Resolve_proofs.
Import ListNotations.
Open Scope string_scope.
Open Scope list_scope.
Open Scope nat_scope.

(** What the index has for the file [q]. *)
Definition part (i : index) (q : string) : omap addr := match oget q i with Some m => m | None => [] end.
Lemma get_part i q name a : index_get q name i = Ok (Some a) <-> oget name (part i q) = Some a.
Proof. unfold index_get, part. destruct (oget q i); [|cbn; split; discriminate]. split; [intros [= ->]; reflexivity|now intros ->]. Qed.
Lemma part_put i q name a : part (index_put name q a i) q = oset name a (part i q).
Proof. unfold part at 1, index_put. now rewrite Pipeline_proofs.oget_oset_same. Qed.
Lemma part_other i q q' name a : q' <> q -> part (index_put name q a i) q' = part i q'.
Proof. intros N. unfold part, index_put. now rewrite Pipeline_proofs.oget_oset_other. Qed.

Definition same_at (p p' : pst) (q : string) : Prop :=
  part (p_types p') q = part (p_types p) q /\ part (p_annots p') q = part (p_annots p) q.

Section Index.
Variable E : denv.
Variable rank : string -> nat.
Let join := e_join (d_y E).
Let readable x := e_read (d_y E) x <> None.
Hypothesis Rank : forall path v, file_tree E path v ->
  (forall x, mentions v x -> readable (join path x) -> rank (join path x) < rank path)
  /\ (forall name value, uses_entry v name value -> readable (join path value) -> rank (join path value) <= rank path).

(** The index agrees with the library of the file. *)
Definition agrees (i : omap addr) (m : omap addr) : Prop :=
  (forall name a, oget name m = Some a -> oget name i = Some a)
  /\ (single_keys E -> forall name a, oget name i = Some a -> oget name m = Some a).
Definition here (p : pst) (q : string) : library :=
  match oget q (p_frags p) with
  | Some (FLib l) => match nth_error (p_libs p) l with Some lib => lib | None => Lib [] [] [] end
  | _ => Lib [] [] []
  end.
Definition exact (p : pst) (q : string) : Prop :=
  agrees (part (p_types p) q) (l_types (here p q)) /\ agrees (part (p_annots p) q) (l_annots (here p q)).

(** [S] are the files whose declarations are being read. *)
Definition inv (S : list string) (p : pst) : Prop :=
  (forall q l, oget q (p_frags p) = Some (FLib l) -> l < List.length (p_libs p)) /\ forall q, ~ In q S -> exact p q.

Definition mono (X B : string -> Prop) (p p' : pst) : Prop :=
  (forall q, ~ X q -> oget q (p_frags p) <> None \/ ~ B q -> same_at p p' q)
  /\ (forall q, oget q (p_frags p) <> None -> oget q (p_frags p') <> None)
  /\ (forall q, ~ B q -> oget q (p_frags p) = None -> oget q (p_frags p') = None).
Definition none (q : string) : Prop := False.

Lemma same_refl p q : same_at p p q. Proof. split; reflexivity. Qed.
Lemma same_trans p1 p2 p3 q : same_at p1 p2 q -> same_at p2 p3 q -> same_at p1 p3 q.
Proof. intros [A1 B1] [A2 B2]. split; congruence. Qed.
Lemma mono_refl X B p : mono X B p p. Proof. split; [intros; split; reflexivity|]. split; auto. Qed.
Lemma mono_trans X B p1 p2 p3 : mono X B p1 p2 -> mono X B p2 p3 -> mono X B p1 p3.
Proof.
  intros (S1 & F1 & N1) (S2 & F2 & N2). split; [|split; auto]. intros q Nx H. apply (same_trans _ p2); [auto|].
  apply S2; [exact Nx|]. destruct H as [H|H]; auto.
Qed.
Lemma mono_weak (X X' B B' : string -> Prop) p p' : (forall q, X q -> X' q) -> (forall q, B q -> B' q) -> mono X B p p' -> mono X' B' p p'.
Proof.
  intros HX HB (S1 & F1 & N1). split; [|split; auto]. intros q Nx H. apply S1; [auto|]. destruct H; auto.
Qed.

Definition grow S X B p p' : Prop := inv S p -> inv S p' /\ mono X B p p'.
Lemma grow_refl S X B p : grow S X B p p. Proof. intros I. split; [exact I|apply mono_refl]. Qed.
Lemma grow_trans S X B p1 p2 p3 : grow S X B p1 p2 -> grow S X B p2 p3 -> grow S X B p1 p3.
Proof. intros G1 G2 I. destruct (G1 I) as [I2 M1]. destruct (G2 I2) as [I3 M2]. split; [exact I3|]. eapply mono_trans; eauto. Qed.
Lemma grow_weak S (X X' B B' : string -> Prop) p p' : (forall q, X q -> X' q) -> (forall q, B q -> B' q) -> grow S X B p p' -> grow S X' B' p p'.
Proof. intros HX HB G I. destruct (G I) as [I' M]. split; [exact I'|]. exact (mono_weak _ _ _ _ _ _ HX HB M). Qed.

Lemma here_same p p' q : p_libs p' = p_libs p -> p_frags p' = p_frags p -> here p' q = here p q.
Proof. unfold here. now intros -> ->. Qed.
Lemma exact_same p p' q : here p' q = here p q -> same_at p p' q -> exact p q -> exact p' q.
Proof. unfold exact. now intros -> [-> ->]. Qed.
Lemma grow_close S X B p p' : close p p' -> grow S X B p p'.
Proof.
  intros [(L & F & _) [T A]] [Lt Ex].
  assert (Sm : forall q, same_at p p' q) by (intros q; split; [now rewrite T|now rewrite A]). split; [split|].
  - intros q l. rewrite L, F. apply Lt.
  - intros q Nq. apply (exact_same p); auto. now apply here_same.
  - split; [auto|]. now rewrite F.
Qed.

(** ** Declarations *)

Section Declare.
Variables (S : list string) (path : string) (inc_dt : string -> D addr) (inc_ne : string -> D unit).
Let B0 q := rank q < rank path.
Let R0 := grow (path :: S) none B0.
Let G := grow (path :: S) (eq path) B0.

Lemma put_grow p p' q0 : near p p' -> (forall q, q <> path -> same_at p p' q) -> q0 = path -> G p p'.
Proof.
  intros (L & F & _) Sm -> [Lt Ex]. split; [split|].
  - intros q l. rewrite L, F. apply Lt.
  - intros q Nq. apply (exact_same p); [now apply here_same|apply Sm; cbn in Nq; intuition congruence|now apply Ex].
  - split; [intros q Nq _; apply Sm; congruence|]. now rewrite F.
Qed.
Lemma R0_G p p' : R0 p p' -> G p p'. Proof. apply grow_weak; [intros q []|auto]. Qed.
Lemma R0_path p p' : R0 p p' -> inv (path :: S) p -> same_at p p' path.
Proof. intros H I. destruct (H I) as [_ (M & _)]. apply M; [intros []|]. right. unfold B0. lia. Qed.

(** The new declarations hide those that were there. *)
Definition over (i i0 m : omap addr) : Prop :=
  forall name, oget name i = match oget name m with Some a => Some a | None => oget name i0 end.

Section Put.
Variables (put : string -> string -> addr -> D unit) (g g' : pst -> index).
Hypothesis Hg : forall nm a p u p', put nm path a p = (Ok u, p') ->
  near p p' /\ g p' = index_put nm path a (g p) /\ g' p' = g' p.
Hypothesis Hs : forall p p' q, same_at p p' q <-> part (g p') q = part (g p) q /\ part (g' p') q = part (g' p) q.

Lemma declarations_over l i0 : (forall x, In x l -> calm R0 E inc_dt inc_ne path x) -> forall m p m' p',
  declarations E inc_dt inc_ne path put l m p = (Ok m', p') -> inv (path :: S) p -> over (part (g p) path) i0 m ->
  G p p' /\ over (part (g p') path) i0 m' /\ part (g' p') path = part (g' p) path.
Proof.
  induction l as [| |k v l IH] using pair_induction; intros C m p m' p' H I O.
  - injection H as <- <-. split; [apply grow_refl|]. auto.
  - discriminate.
  - cbn [declarations] in H. unfold dbind in H.
    destruct (shape_yaml E inc_dt inc_ne v (y_value k) path p) as [[x| | |] p1] eqn:H1; try discriminate.
    destruct (put (y_value k) path x p1) as [[u| | |] p2] eqn:H2; try discriminate.
    assert (Q1 : R0 p p1) by exact (al_shape_yaml R0 (grow_close _ _ _) (grow_trans _ _ _) E inc_dt inc_ne path v (y_value k) (C v (or_intror (or_introl eq_refl))) p x p1 H1).
    destruct (Hg _ _ _ _ _ H2) as (N2 & T2 & A2). pose proof (proj1 (Hs _ _ _) (R0_path _ _ Q1 I)) as [T1 A1].
    assert (Q2 : G p1 p2).
    { apply (put_grow _ _ path); auto. intros q Nq. apply Hs. rewrite T2, A2. split; [now apply part_other|reflexivity]. }
    assert (Q : G p p2) by (apply (grow_trans _ _ _ p p1); [now apply R0_G|exact Q2]).
    destruct (Q I) as [I2 _].
    destruct (IH (fun x J => C x (or_intror (or_intror J))) _ _ _ _ H I2) as (Q3 & O3 & A3).
    { intros name. rewrite T2, part_put, T1. destruct (String.eqb name (y_value k)) eqn:En.
      - apply String.eqb_eq in En. subst name. now rewrite !Pipeline_proofs.oget_oset_same.
      - apply String.eqb_neq in En. rewrite !Pipeline_proofs.oget_oset_other by auto. apply O. }
    split; [exact (grow_trans _ _ _ _ _ _ Q Q3)|]. split; [exact O3|]. rewrite A3, A2. exact A1.
Qed.

Lemma declare_over v old p m p' : calm R0 E inc_dt inc_ne path v ->
  declare E inc_dt inc_ne path put v old p = (Ok m, p') -> inv (path :: S) p ->
  G p p' /\ part (g' p') path = part (g' p) path
  /\ ((m = old /\ part (g p') path = part (g p) path) \/ over (part (g p') path) (part (g p) path) m).
Proof.
  intros C H I. unfold declare in H. destruct (String.eqb _ _).
  { injection H as <- <-. split; [apply grow_refl|]. auto. }
  destruct (y_kind v); try discriminate.
  destruct (declarations_over _ (part (g p) path) (fun x J => calm_child _ _ _ _ _ _ _ C J) _ _ _ _ H I) as (Q & O & A); [intros name; reflexivity|].
  auto.
Qed.
End Put.

Lemma type_put nm a p u p' : put_type nm path a p = (Ok u, p') -> near p p' /\ p_types p' = index_put nm path a (p_types p) /\ p_annots p' = p_annots p.
Proof. intros [= _ <-]. repeat split. Qed.
Lemma annot_put nm a p u p' : put_annot nm path a p = (Ok u, p') -> near p p' /\ p_annots p' = index_put nm path a (p_annots p) /\ p_types p' = p_types p.
Proof. intros [= _ <-]. repeat split. Qed.

(** One of the two tables while the keys [ks] of the library have been read. *)
Definition told (key : string) (ks : list string) (i m : omap addr) : Prop :=
  (forall name a, oget name m = Some a -> oget name i = Some a)
  /\ (single_keys E -> NoDup ks -> forall name a, oget name i = Some a -> oget name m = Some a)
  /\ (single_keys E -> ~ In key ks -> forall name, oget name i = None).
Lemma told_other key ks k i m : told key ks i m -> told key (ks ++ [k]) i m.
Proof.
  intros (A & B & C). split; [exact A|]. split.
  - intros Sk ND. apply (B Sk). apply NoDup_remove_1 in ND. now rewrite app_nil_r in ND.
  - intros Sk N. apply (C Sk). intros J. apply N, in_or_app. now left.
Qed.
Lemma told_here key ks i i0 m0 m : told key ks i0 m0 -> (m = m0 /\ i = i0) \/ over i i0 m -> told key (ks ++ [key]) i m.
Proof.
  intros T [[-> ->]|O]; [now apply told_other|]. destruct T as (A & B & C). split; [|split].
  - intros name a H. rewrite O, H. reflexivity.
  - intros Sk ND name a H. rewrite O in H. destruct (oget name m) as [x|]; [congruence|]. rewrite (C Sk) in H; [discriminate|].
    intros J. apply NoDup_remove_2 in ND. apply ND. now rewrite app_nil_r.
  - intros _ N. destruct N. apply in_or_app. right. now left.
Qed.

Lemma lib_entries_told l : (forall x, In x l -> calm R0 E inc_dt inc_ne path x) -> forall b p b' p' ks,
  lib_entries E inc_dt inc_ne path l b p = (Ok b', p') -> inv (path :: S) p ->
  told "types" ks (part (p_types p) path) (pl_types b) -> told "annotationTypes" ks (part (p_annots p) path) (pl_annots b) ->
  exists ps, pairs_of l ps /\ G p p'
    /\ told "types" (ks ++ map fst ps) (part (p_types p') path) (pl_types b')
    /\ told "annotationTypes" (ks ++ map fst ps) (part (p_annots p') path) (pl_annots b').
Proof.
  induction l as [| |k v l IH] using pair_induction; intros C b p b' p' ks H I Tt Ta.
  - injection H as <- <-. exists []. split; [constructor|]. split; [apply grow_refl|]. cbn. now rewrite app_nil_r.
  - discriminate.
  - assert (Cv : calm R0 E inc_dt inc_ne path v) by (apply C; cbn; tauto).
    assert (Go : forall b1 p1, lib_entries E inc_dt inc_ne path l b1 p1 = (Ok b', p') -> G p p1 ->
      told "types" (ks ++ [y_value k]) (part (p_types p1) path) (pl_types b1) ->
      told "annotationTypes" (ks ++ [y_value k]) (part (p_annots p1) path) (pl_annots b1) ->
      exists ps, pairs_of (k :: v :: l) ps /\ G p p'
        /\ told "types" (ks ++ map fst ps) (part (p_types p') path) (pl_types b')
        /\ told "annotationTypes" (ks ++ map fst ps) (part (p_annots p') path) (pl_annots b')).
    { intros b1 p1 H1 Q1 T1 A1. destruct (Q1 I) as [I1 _].
      destruct (IH (fun x J => C x (or_intror (or_intror J))) _ _ _ _ _ H1 I1 T1 A1) as (ps & P & Q2 & T2 & A2).
      exists ((y_value k, v) :: ps). split; [now constructor|]. split; [exact (grow_trans _ _ _ _ _ _ Q1 Q2)|].
      rewrite <- app_assoc in T2, A2. split; assumption. }
    cbn [lib_entries] in H. destruct (String.eqb (y_value k) "uses").
    { unfold dbind, dlift in H. destruct (lib_uses v (pl_uses b)) as [m| | |]; try discriminate.
      apply (Go _ _ H); [apply grow_refl|now apply told_other|now apply told_other]. }
    destruct (String.eqb (y_value k) "types") eqn:Kt.
    { unfold dbind in H. destruct (declare E inc_dt inc_ne path put_type v (pl_types b) p) as [[m| | |] p1] eqn:D; try discriminate.
      destruct (declare_over put_type p_types p_annots type_put (fun _ _ _ => iff_refl _) _ _ _ _ _ Cv D I) as (Q & Sa & O).
      apply String.eqb_eq in Kt. apply (Go _ _ H Q); cbn [pl_types pl_annots].
      - rewrite Kt. exact (told_here _ _ _ _ _ _ Tt O).
      - rewrite Sa. now apply told_other. }
    destruct (String.eqb (y_value k) "annotationTypes") eqn:Ka.
    { unfold dbind in H. destruct (declare E inc_dt inc_ne path put_annot v (pl_annots b) p) as [[m| | |] p1] eqn:D; try discriminate.
      destruct (declare_over put_annot p_annots p_types annot_put (fun _ _ _ => and_comm _ _) _ _ _ _ _ Cv D I) as (Q & Sa & O).
      apply String.eqb_eq in Ka. apply (Go _ _ H Q); cbn [pl_types pl_annots].
      - rewrite Sa. now apply told_other.
      - rewrite Ka. exact (told_here _ _ _ _ _ _ Ta O). }
    destruct (String.eqb (y_value k) "usage").
    { unfold dbind, dlift in H. destruct (d_string E v); try discriminate. apply (Go _ _ H); [apply grow_refl|now apply told_other|now apply told_other]. }
    destruct (is_annotation (y_value k)).
    { unfold dbind in H. destruct (make_ext E path (y_value k) v p) as [[m| | |] p1] eqn:M; try discriminate.
      assert (Q : R0 p p1) by exact (al_make_ext R0 (grow_close _ _ _) (grow_trans _ _ _) E path (y_value k) v p m p1 M).
      destruct (R0_path _ _ Q I) as [T1 A1]. apply (Go _ _ H); [now apply R0_G|rewrite T1|rewrite A1]; now apply told_other. }
    apply (Go _ _ H); [apply grow_refl|now apply told_other|now apply told_other].
Qed.
End Declare.

(** ** Links and new fragments *)

Lemma link_lib_grow S B l name x : along (grow S none B) (link_lib l name x).
Proof.
  intros p u p' H [Lt Ex]. unfold link_lib in H. destruct (nth_error (p_libs p) l) as [lib|] eqn:N; [|discriminate]. injection H as _ <-.
  set (lib' := Lib (l_types lib) (l_annots lib) (oset name x (l_uses lib))).
  set (p' := PSt _ _ _ _ _ _ _ _ _).
  assert (Hr : forall q, l_types (here p' q) = l_types (here p q) /\ l_annots (here p' q) = l_annots (here p q)).
  { intros q. unfold here. cbn [p_frags p_libs p']. destruct (oget q (p_frags p)) as [[k| |]|]; auto.
    destruct (Nat.eq_dec l k) as [<-|Nk].
    - rewrite (Heap_lemmas.nth_error_upd_eq _ _ _ _ N), N. split; reflexivity.
    - rewrite Heap_lemmas.nth_error_upd_neq by auto. auto. }
  split; [split|].
  - intros q k Hq. cbn [p_libs p']. rewrite Heap_lemmas.upd_length. exact (Lt q k Hq).
  - intros q Nq. unfold exact. destruct (Hr q) as [-> ->]. exact (Ex q Nq).
  - split; [intros; split; reflexivity|]. split; auto.
Qed.

Lemma link_uses_grow S B inc_lib path l m : (forall name value, In (name, value) m -> along (grow S none B) (inc_lib (join path value))) ->
  forall p p', link_uses E inc_lib path l m p = (Ok true, p') -> grow S none B p p'.
Proof.
  induction m as [|[name value] m IH]; intros Ld p p' H; [injection H as <-; apply grow_refl|].
  cbn [link_uses] in H. unfold dbind at 1, dtry in H.
  destruct (inc_lib (e_join (d_y E) path value) p) as [[k| | |] p1] eqn:Ei; try discriminate.
  2:{ unfold dbind in H. destruct (link_lib l name None p1) as [[u| | |] p2]; try discriminate.
      destruct (link_uses _ _ _ _ m p2) as [[ok| | |] p3]; discriminate. }
  unfold dbind at 1 in H. destruct (link_lib l name (Some k) p1) as [[u| | |] p2] eqn:El; try discriminate.
  unfold dbind in H. destruct (link_uses E inc_lib path l m p2) as [[ok| | |] p3] eqn:Em; try discriminate. injection H as -> <-.
  apply (grow_trans _ _ _ p p1); [exact (Ld name value (or_introl eq_refl) _ _ _ Ei)|].
  apply (grow_trans _ _ _ p1 p2); [exact (link_lib_grow _ _ _ _ _ _ _ _ El)|]. apply (IH (fun a b J => Ld a b (or_intror J)) _ _ Em).
Qed.

(** The fragment at [x] becomes something that is not a library. *)
Lemma frag_grow S (B : string -> Prop) x p p' : p_libs p' = p_libs p -> p_types p' = p_types p -> p_annots p' = p_annots p ->
  (forall q, q <> x -> oget q (p_frags p') = oget q (p_frags p)) ->
  (forall l, oget x (p_frags p) <> Some (FLib l)) -> (forall l, oget x (p_frags p') <> Some (FLib l)) -> oget x (p_frags p') <> None -> B x ->
  grow S none B p p'.
Proof.
  intros L T A F N N' Some_ Bx [Lt Ex].
  assert (Hr : forall q, here p' q = here p q).
  { intros q. unfold here. rewrite L. destruct (string_dec q x) as [->|Nq]; [|now rewrite F].
    destruct (oget x (p_frags p')) as [[l| |]|]; [now destruct (N' l)| | |];
    (destruct (oget x (p_frags p)) as [[l| |]|]; [now destruct (N l)| | |]; reflexivity). }
  assert (Sm : forall q, same_at p p' q) by (intros q; split; [now rewrite T|now rewrite A]).
  split; [split|].
  - intros q l Hq. rewrite L. destruct (string_dec q x) as [->|Nq]; [now destruct (N' l)|]. rewrite F in Hq by auto. exact (Lt q l Hq).
  - intros q Nq. apply (exact_same p); auto.
  - split; [auto|]. split.
    + intros q Hq. destruct (string_dec q x) as [->|Nq]; [exact Some_|]. now rewrite F.
    + intros q Hq. destruct (string_dec q x) as [->|Nq]; [contradiction|]. now rewrite F.
Qed.

Lemma link_dt_grow S (B : string -> Prop) path mine name x : B path -> along (grow S none B) (link_dt path mine name x).
Proof.
  intros Bp p u p' H. unfold link_dt in H. destruct mine; [|injection H as _ <-; apply grow_refl].
  destruct (oget path (p_frags p)) as [[l|us sh|]|] eqn:Q; injection H as _ <-; try apply grow_refl.
  apply (frag_grow _ _ path); cbn; auto.
  - intros q Nq. now apply Pipeline_proofs.oget_oset_other.
  - intros l. rewrite Q. discriminate.
  - intros l. rewrite Pipeline_proofs.oget_oset_same. discriminate.
  - rewrite Pipeline_proofs.oget_oset_same. discriminate.
Qed.
Lemma link_dt_uses_grow S (B : string -> Prop) inc_lib path mine m : B path -> (forall name value, In (name, value) m -> along (grow S none B) (inc_lib (join path value))) ->
  along (grow S none B) (link_dt_uses E inc_lib path mine m).
Proof.
  intros Bp. induction m as [|[name value] m IH]; intros Ld; cbn [link_dt_uses]; [apply (al_ret _ (grow_close _ _ _))|].
  apply (al_bind _ (grow_trans _ _ _)); [apply (Ld name), or_introl, eq_refl|]. intros l.
  apply (al_bind _ (grow_trans _ _ _)); [now apply link_dt_grow|]. intros _. apply IH. intros nm vl J. apply (Ld nm vl). now right.
Qed.

Lemma put_grow_other S (B : string -> Prop) x f dt : B x -> (forall l, f <> FLib l) -> along (grow S none B) (put_fragment x f dt).
Proof.
  intros Bx Nf p u p' H. unfold put_fragment in H. destruct (oget x (p_frags p)) as [g|] eqn:Q; injection H as _ <-; [apply grow_refl|].
  apply (frag_grow _ _ x); cbn; auto.
  - intros q Nq. rewrite oget_snoc. destruct (oget q (p_frags p)); [reflexivity|]. apply String.eqb_neq in Nq. now rewrite Nq.
  - intros l. rewrite Q. discriminate.
  - intros l. rewrite oget_snoc, Q, String.eqb_refl. intros [= ->]. now apply (Nf l).
  - rewrite oget_snoc, Q, String.eqb_refl. discriminate.
Qed.

Lemma decode_ne_grow S (B : string -> Prop) text x : B x -> along (grow S none B) (decode_ne E text x).
Proof.
  intros Bx. unfold decode_ne.
  assert (P : along (grow S none B) (put_fragment x FNE None)) by (apply put_grow_other; [exact Bx|discriminate]).
  apply (al_bind _ (grow_trans _ _ _)); [apply (al_lift _ (grow_close _ _ _))|]. intros [v|]; [|exact P].
  destruct (y_kind v); try apply (al_lift _ (grow_close _ _ _)).
  apply (al_bind _ (grow_trans _ _ _)); [apply (al_example_map _ (grow_close _ _ _) (grow_trans _ _ _))|]. intros. exact P.
Qed.
Lemma parse_ne_grow S (B : string -> Prop) x : B x -> along (grow S none B) (parse_ne E x).
Proof.
  intros Bx. unfold parse_ne. apply (al_bind _ (grow_trans _ _ _)); [apply (al_get _ (grow_close _ _ _))|]. intros p.
  destruct (oget x (p_frags p)) as [[]|]; try apply (al_lift _ (grow_close _ _ _)); try apply (al_ret _ (grow_close _ _ _)).
  apply (al_bind _ (grow_trans _ _ _)); [apply (al_lift _ (grow_close _ _ _))|]. intros text. now apply decode_ne_grow.
Qed.

(** ** Libraries *)

Section Load.
Variables (S : list string) (path text : string) (inc_dt : string -> D addr) (inc_ne : string -> D unit) (inc_lib : string -> D nat).
Hypothesis HS : forall q, In q S -> rank path < rank q.
Hypothesis Rd : e_read (d_y E) path = Some text.
Hypothesis Inc : forall S', (forall q, In q S' -> rank path <= rank q) -> forall x, readable x -> rank x < rank path ->
  along (grow S' none (fun q => rank q < rank path)) (inc_dt x) /\ along (grow S' none (fun q => rank q < rank path)) (inc_ne x).
Hypothesis Udt : forall x p, ~ readable x -> forall a p', inc_dt x p = (Ok a, p') -> p' = p.
Hypothesis Une : forall x p, ~ readable x -> forall a p', inc_ne x p = (Ok a, p') -> p' = p.
Hypothesis Ld : forall x, readable x -> rank x <= rank path -> along (grow S none (fun q => rank q <= rank path)) (inc_lib x).
Hypothesis Uld : forall x p, ~ readable x -> forall l p', inc_lib x p = (Ok l, p') -> p' = p.

Lemma calm_tree S' v : (forall q, In q S' -> rank path <= rank q) -> file_tree E path v ->
  calm (grow S' none (fun q => rank q < rank path)) E inc_dt inc_ne path v.
Proof.
  intros HS' T t W Kt Tt. assert (Me : mentions v (y_value t)) by (exists t; auto). destruct (Rank path v T) as [RI _].
  destruct (e_read (d_y E) (e_join (d_y E) path (y_value t))) as [z|] eqn:Rz.
  - assert (Ry : readable (join path (y_value t))) by (unfold readable, join; congruence). apply (Inc S' HS'); auto.
  - assert (Ry : ~ readable (join path (y_value t))) by (unfold readable, join; congruence).
    split; intros q a q' Hq; [rewrite (Udt _ _ Ry _ _ Hq)|rewrite (Une _ _ Ry _ _ Hq)]; apply grow_refl.
Qed.
Lemma load_uses v name value : file_tree E path v -> uses_entry v name value -> along (grow S none (fun q => rank q <= rank path)) (inc_lib (join path value)).
Proof.
  intros T U. destruct (Rank path v T) as [_ RU]. destruct (e_read (d_y E) (join path value)) as [z|] eqn:Rz.
  - assert (Ry : readable (join path value)) by (unfold readable; congruence). apply Ld; auto. exact (RU name value U Ry).
  - assert (Ry : ~ readable (join path value)) by (unfold readable; congruence). intros q k q' Hq. rewrite (Uld _ _ Ry _ _ Hq). apply grow_refl.
Qed.

Lemma decode_lib_grow p l p' : decode_lib E inc_dt inc_ne inc_lib text path p = (Ok l, p') -> oget path (p_frags p) = None ->
  grow S none (fun q => rank q <= rank path) p p'.
Proof.
  intros H Q I. unfold decode_lib in H. unfold dbind at 1, dlift in H.
  destruct (document E text) as [[v|]| | |] eqn:D; try discriminate.
  assert (T : file_tree E path v).
  { destruct (document_tree E text v D) as (tag & value & more & Y). exists text, tag, value, more. auto. }
  set (B := fun q => rank q <= rank path) in *.
  assert (Nin : ~ In path S) by (intros J; specialize (HS _ J); lia).
  unfold dbind at 1 in H. destruct (unmarshal_lib E inc_dt inc_ne path v p) as [[b| | |] p1] eqn:U; try discriminate.
  assert (HS' : forall q, In q (path :: S) -> rank path <= rank q) by (intros q [<-|J]; [lia|specialize (HS _ J); lia]).
  assert (I' : inv (path :: S) p). { destruct I as [Lt Ex]. split; [exact Lt|]. intros q Nq. apply Ex. intros J. apply Nq. now right. }
  assert (Here : here p path = Lib [] [] []) by (unfold here; now rewrite Q).
  pose proof (proj2 I path Nin) as [X1 X2]. rewrite Here in X1, X2. cbn [l_types l_annots] in X1, X2.
  assert (Told0 : forall key i, agrees i [] -> told key [] i []).
  { intros key i [_ A]. split; [discriminate|]. split; [intros Sk _ name a Hn; exact (A Sk name a Hn)|].
    intros Sk _ name. destruct (oget name i) as [a|] eqn:Hn; [|reflexivity]. discriminate (A Sk name a Hn). }
  pose proof (Parse_once.unmarshal_lib_uses _ _ _ _ _ _ _ _ U) as [_ Us].
  unfold unmarshal_lib in U. destruct (y_kind v); try discriminate.
  destruct (lib_entries_told S path inc_dt inc_ne (y_content v) (fun x J => calm_child _ _ _ _ _ _ _ (calm_tree (path :: S) v HS' T) J)
    (PLib [] [] []) p b p1 [] U I' (Told0 _ _ X1) (Told0 _ _ X2)) as (ps & P & G & (Tt1 & Tt2 & _) & (Ta1 & Ta2 & _)).
  cbn [app] in *. destruct (G I') as [[Lt1 Ex1] (M1 & M2 & M3)].
  assert (Q1 : oget path (p_frags p1) = None) by (apply M3; [lia|exact Q]).
  unfold dbind at 1, new_lib in H. unfold dbind at 1, put_fragment in H. cbn [p_st p_libs p_frags p_dts p_exts p_types p_annots p_todo p_facets] in H. rewrite Q1 in H.
  set (l0 := List.length (p_libs p1)) in *. set (lib0 := Lib (pl_types b) (pl_annots b) (unlinked (pl_uses b))) in *.
  set (p2 := PSt (p_st p1) (p_libs p1 ++ [lib0]) (p_frags p1 ++ [(path, FLib l0)]) (p_dts p1) (p_exts p1) (p_types p1) (p_annots p1) (p_todo p1) (p_facets p1)) in *.
  assert (F2 : forall q, oget q (p_frags p2) = match oget q (p_frags p1) with Some f => Some f | None => if String.eqb q path then Some (FLib l0) else None end)
    by (intros q; cbn; apply oget_snoc).
  assert (I2 : inv S p2).
  { split.
    - intros q k Hq. rewrite F2 in Hq. cbn [p_libs p2]. rewrite app_length. cbn. destruct (oget q (p_frags p1)) as [f|] eqn:Qf.
      + injection Hq as ->. specialize (Lt1 _ _ Qf). lia.
      + destruct (String.eqb q path); [|discriminate]. injection Hq as <-. unfold l0. lia.
    - intros q Nq. destruct (string_dec q path) as [->|Np].
      + assert (Hr : here p2 path = lib0).
        { unfold here. rewrite F2, Q1, String.eqb_refl. cbn [p_libs p2]. rewrite nth_error_app2 by (unfold l0; lia). unfold l0. now rewrite Nat.sub_diag. }
        unfold exact. rewrite Hr. split; (split; [assumption|]); intros Sk; [apply (Tt2 Sk)|apply (Ta2 Sk)]; exact (Sk path v ps T P).
      + apply (exact_same p1); [|split; reflexivity|apply Ex1; cbn; intuition congruence].
        unfold here. rewrite F2. apply String.eqb_neq in Np. rewrite Np. destruct (oget q (p_frags p1)) as [[k| |]|] eqn:Qf; auto.
        cbn [p_libs p2]. rewrite nth_error_app1; [reflexivity|exact (Lt1 _ _ Qf)]. }
  unfold dbind in H. destruct (link_uses E inc_lib path l0 (pl_uses b) p2) as [[ok| | |] p3] eqn:Lk; try discriminate.
  destruct ok; [|discriminate]. unfold dret in H. injection H as <- <-.
  destruct (link_uses_grow S B inc_lib path l0 (pl_uses b) (fun name value J => load_uses v name value T (proj1 (Us name value) J)) p2 p3 Lk I2) as [I3 (S3 & K3 & N3)].
  split; [exact I3|]. split; [|split].
  - intros q _ Hq. assert (Np : q <> path) by (intros ->; destruct Hq as [Hq|Hq]; [congruence|apply Hq; unfold B; lia]).
    apply (same_trans _ p1). { apply M1; [congruence|]. destruct Hq as [Hq|Hq]; [now left|right; unfold B in Hq; lia]. }
    apply (same_trans _ p2); [split; reflexivity|]. apply S3; [intros []|]. destruct Hq as [Hq|Hq]; [left|now right].
    rewrite F2. specialize (M2 q Hq). destruct (oget q (p_frags p1)); congruence.
  - intros q Hq. apply K3. rewrite F2. specialize (M2 q Hq). destruct (oget q (p_frags p1)); congruence.
  - intros q Bq Hq. apply (N3 q Bq). rewrite F2. rewrite (M3 q) by (unfold B in Bq; auto; lia).
    destruct (String.eqb q path) eqn:Qp; [|reflexivity]. apply String.eqb_eq in Qp. subst q. destruct Bq. unfold B. lia.
Qed.

Lemma decode_dt_grow p a p' : decode_dt E inc_dt inc_ne inc_lib text path p = (Ok a, p') ->
  grow S none (fun q => rank q <= rank path) p p'.
Proof.
  set (B := fun q => rank q <= rank path). assert (Bp : B path) by (unfold B; lia).
  intros H. unfold decode_dt in H. unfold dbind at 1 in H.
  destruct ((if has_suffix ".json" path then dret (Some (json_document text)) else dlift (document E text)) p) as [[[v|]| | |] p0] eqn:D; try discriminate.
  assert (P0 : p0 = p). { destruct (has_suffix ".json" path); unfold dret, dlift in D; congruence. } subst p0.
  assert (T : v = json_document text \/ file_tree E path v).
  { destruct (has_suffix ".json" path); unfold dret, dlift in D; [left; congruence|right].
    destruct (document_tree E text v) as (tag & value & more & Y); [congruence|]. exists text, tag, value, more. auto. }
  unfold dbind at 1 in H. destruct (unmarshal_dt E inc_dt inc_ne path v p) as [[r| | |] p1] eqn:U; try discriminate.
  assert (HS' : forall q, In q S -> rank path <= rank q) by (intros q J; specialize (HS _ J); lia).
  assert (G1 : grow S none B p p1).
  { apply (grow_weak S none none (fun q => rank q < rank path) B); auto; [unfold B; intros; lia|].
    refine (al_unmarshal_dt _ (grow_close _ _ _) (grow_trans _ _ _) E inc_dt inc_ne path v _ p r p1 U).
    destruct T as [->|T]; [apply Parse_once.json_calm|]. exact (calm_tree S v HS' T). }
  destruct (Parse_once.unmarshal_dt_uses _ _ _ _ _ _ _ _ U) as [_ Us].
  apply (grow_trans _ _ _ p p1); [exact G1|]. clear G1 U D. unfold dbind at 1, dget in H.
  revert H. generalize (match oget path (p_frags p1) with Some _ => false | None => true end). intros mine H.
  eapply (al_bind (grow S none B) (grow_trans _ _ _) (hp (alloc (CDT (Some (snd r)))))); [apply (al_hp _ (grow_close _ _ _))| |exact H].
  intros ad. apply (al_bind _ (grow_trans _ _ _)); [apply put_grow_other; [exact Bp|discriminate]|]. intros _.
  apply (al_bind _ (grow_trans _ _ _)); [|intros; apply (al_ret _ (grow_close _ _ _))].
  apply link_dt_uses_grow; [exact Bp|]. intros name value J. apply Us in J.
  destruct T as [->|T]; [destruct (Parse_once.json_no_uses _ _ _ J)|]. exact (load_uses v name value T J).
Qed.
End Load.

(** ** All files *)

Lemma files_index n : forall x S, (forall q, In q S -> rank x < rank q) ->
  along (grow S none (fun q => rank q <= rank x)) (parse_dt E n x) /\ along (grow S none (fun q => rank q <= rank x)) (parse_lib E n x).
Proof.
  induction n as [|n IH]; intros x S HS; [split; intros p a p' H; discriminate|].
  assert (Inc : forall S', (forall q, In q S' -> rank x <= rank q) -> forall y, readable y -> rank y < rank x ->
     along (grow S' none (fun q => rank q < rank x)) (parse_dt E n y) /\ along (grow S' none (fun q => rank q < rank x)) (parse_ne E y)).
  { intros S' HS' y Ry Lt. split; [|now apply parse_ne_grow]. intros p a p' H.
    apply (grow_weak S' none none (fun q => rank q <= rank y)); [auto|intros; lia|].
    refine (proj1 (IH y S' _) p a p' H). intros q J. specialize (HS' q J). lia. }
  assert (Ld : forall y, readable y -> rank y <= rank x -> along (grow S none (fun q => rank q <= rank x)) (parse_lib E n y)).
  { intros y Ry Le p l p' H. apply (grow_weak S none none (fun q => rank q <= rank y)); [auto|intros; lia|].
    refine (proj2 (IH y S _) p l p' H). intros q J. specialize (HS q J). lia. }
  assert (Uld : forall y p, ~ readable y -> forall l p', parse_lib E n y p = (Ok l, p') -> p' = p)
    by (intros y p N l p' H; exact (proj1 (Parse_once.lib_unreadable E n y p N l p' H))).
  split; intros p a p' H.
  - rewrite parse_dt_eq in H. destruct (oget x (p_frags p)) as [[]|] eqn:Q; try discriminate.
    { destruct (oget x (p_dts p)); [|discriminate]. injection H as _ <-. apply grow_refl. }
    unfold dbind at 1, dlift in H. destruct (open_fragment E x KDataType) as [text| | |] eqn:O; try discriminate.
    exact (decode_dt_grow S x text _ _ _ HS (open_readable E x _ _ O) Inc (fun y q N => Parse_once.dt_unreadable E n y q N) (Parse_once.ne_unreadable E)
             Ld Uld p a p' H).
  - rewrite parse_lib_eq in H. destruct (oget x (p_frags p)) as [[l| |]|] eqn:Q; try discriminate.
    { injection H as <- <-. apply grow_refl. }
    unfold dbind at 1, dlift in H. destruct (open_fragment E x KLibrary) as [text| | |] eqn:O; try discriminate.
    exact (decode_lib_grow S x text _ _ _ HS (open_readable E x _ _ O) Inc (fun y q N => Parse_once.dt_unreadable E n y q N) (Parse_once.ne_unreadable E)
             Ld Uld p a p' H Q).
Qed.

Lemma inv_new : inv [] new_raml.
Proof. split; [discriminate|]. intros q _. split; split; intros; discriminate. Qed.

Lemma fragment_index n text path ep p : e_read (d_y E) path = Some text ->
  decode_fragment E n text path new_raml = (Ok ep, p) -> inv [] p.
Proof.
  intros Rdp H.
  assert (Inc : forall S', (forall q, In q S' -> rank path <= rank q) -> forall y, readable y -> rank y < rank path ->
     along (grow S' none (fun q => rank q < rank path)) (parse_dt E n y) /\ along (grow S' none (fun q => rank q < rank path)) (parse_ne E y)).
  { intros S' HS' y Ry Lt. split; [|now apply parse_ne_grow]. intros p0 a p' H0.
    apply (grow_weak S' none none (fun q => rank q <= rank y)); [auto|intros; lia|].
    refine (proj1 (files_index n y S' _) p0 a p' H0). intros q J. specialize (HS' q J). lia. }
  assert (Ld : forall y, readable y -> rank y <= rank path -> along (grow [] none (fun q => rank q <= rank path)) (parse_lib E n y)).
  { intros y Ry Le p0 l p' H0. apply (grow_weak [] none none (fun q => rank q <= rank y)); [auto|intros; lia|].
    refine (proj2 (files_index n y [] _) p0 l p' H0). intros q []. }
  assert (Uld : forall y p, ~ readable y -> forall l p', parse_lib E n y p = (Ok l, p') -> p' = p)
    by (intros y p0 N l p' H0; exact (proj1 (Parse_once.lib_unreadable E n y p0 N l p' H0))).
  assert (HS : forall q, In q (@nil string) -> rank path < rank q) by (intros q []).
  unfold decode_fragment in H. destruct (read_head (Rd text 0)) as [[head| | |] rd]; try discriminate.
  destruct (identify_fragment head) as [[]| | |]; try discriminate; unfold dbind at 1 in H.
  - destruct (decode_lib E (parse_dt E n) (parse_ne E) (parse_lib E n) text path new_raml) as [[l| | |] p1] eqn:D; try discriminate.
    injection H as <- <-.
    exact (proj1 (decode_lib_grow [] path text _ _ _ HS Rdp Inc (fun y q N => Parse_once.dt_unreadable E n y q N) (Parse_once.ne_unreadable E)
             Ld Uld _ _ _ D eq_refl inv_new)).
  - destruct (decode_dt E (parse_dt E n) (parse_ne E) (parse_lib E n) text path new_raml) as [[a| | |] p1] eqn:D; try discriminate.
    injection H as <- <-.
    exact (proj1 (decode_dt_grow [] path text _ _ _ HS Rdp Inc (fun y q N => Parse_once.dt_unreadable E n y q N) (Parse_once.ne_unreadable E)
             Ld Uld _ _ _ D inv_new)).
  - destruct (decode_ne E text path new_raml) as [[a| | |] p1] eqn:D; try discriminate.
    injection H as <- <-. exact (proj1 (decode_ne_grow [] (fun _ => True) text path Logic.I _ _ _ D inv_new)).
Qed.

(** ** Resolution *)

Let any (q : string) : Prop := True.
Let R := grow [] none any.
Let Rc : forall p p', close p p' -> R p p' := grow_close _ _ _.
Let Rt : forall p1 p2 p3, R p1 p2 -> R p2 p3 -> R p1 p3 := grow_trans _ _ _.

Section See.
Variables (conc : addr -> string -> option fnodes -> D unit) (rec : addr -> D unit).
Hypothesis Conc : forall a t fs, along R (conc a t fs).
Hypothesis Rec : forall a, along R (rec a).

Lemma al_fresh name t loc : along R (fresh_shape conc name t loc).
Proof. unfold fresh_shape. apply (al_bind _ Rt); [apply (al_hp _ Rc)|]. intros a. apply (al_bind _ Rt); [apply Conc|]. intros. apply (al_ret _ Rc). Qed.
Lemma al_see_ref name a fs : along R (see_ref conc rec name a fs).
Proof.
  unfold see_ref. apply (al_bind _ Rt); [apply (al_hp _ Rc)|]. intros b. apply (al_bind _ Rt); [apply (al_get _ Rc)|]. intros p.
  apply (al_bind _ Rt); [apply (al_lift _ Rc)|]. intros r. apply (al_bind _ Rt); [apply (al_hp _ Rc)|]. intros rb.
  destruct (Z.eqb _ _); [apply (al_lift _ Rc)|]. apply (al_bind _ Rt); [apply Rec|]. intros _.
  apply (al_bind _ Rt); [apply (al_hp _ Rc)|]. intros rb'. apply (al_bind _ Rt); [apply Conc|]. intros _. destruct fs; apply (al_hp _ Rc).
Qed.
Lemma al_see_members loc (see : typ -> addr -> option fnodes -> D unit) ts : (forall t, In t ts -> forall a fs, along R (see t a fs)) ->
  along R ((fix members (l : list typ) : D (list addr) :=
               match l with
               | [] => dret []
               | t :: l' =>
                   (x <- fresh_shape conc "" "" loc ;;
                   see t x None ;;;
                   r <- members l' ;;
                   dret (x :: r))%D
               end) ts).
Proof.
  induction ts as [|t ts IH]; intros Q; [apply (al_ret _ Rc)|].
  apply (al_bind _ Rt); [apply al_fresh|]. intros x. apply (al_bind _ Rt); [apply Q, or_introl, eq_refl|]. intros _.
  apply (al_bind _ Rt); [apply IH; intros; apply Q; now right|]. intros. apply (al_ret _ Rc).
Qed.

Lemma see_union_eq t1 t2 ts a fs : see_expr conc rec (EUnion t1 t2 ts) a fs =
  (conc a "union" fs ;;;
      b <- hp (rd get_base a) ;;
      x1 <- fresh_shape conc "" "" (b_loc b) ;;
      see_typ conc rec t1 x1 None ;;;
      x2 <- fresh_shape conc "" "" (b_loc b) ;;
      see_typ conc rec t2 x2 None ;;;
      xs <- (fix members (l : list typ) : D (list addr) :=
               match l with
               | [] => dret []
               | t :: l' =>
                   x <- fresh_shape conc "" "" (b_loc b) ;;
                   see_typ conc rec t x None ;;;
                   r <- members l' ;;
                   dret (x :: r)
               end) ts ;;
      sl <- hp (alloc (CSlice (x1 :: x2 :: xs))) ;;
      hp (set_members a sl))%D.
Proof. reflexivity. Qed.
Lemma see_array_eq at_ a fs : see_typ conc rec (TArray at_) a fs =
  (conc a "array" fs ;;;
      b <- hp (rd get_base a) ;;
      i <- fresh_shape conc "" "" (b_loc b) ;;
      see_atom conc rec at_ i None ;;;
      hp (upd_arr a (set_items (Some i))))%D.
Proof. reflexivity. Qed.
Lemma see_optional_eq at_ a fs : see_typ conc rec (TOptional at_) a fs =
  (conc a "union" fs ;;;
      b <- hp (rd get_base a) ;;
      x <- fresh_shape conc "" "" (b_loc b) ;;
      see_atom conc rec at_ x None ;;;
      nl <- fresh_shape conc "" "nil" (b_loc b) ;;
      sl <- hp (alloc (CSlice [x; nl])) ;;
      hp (set_members a sl))%D.
Proof. reflexivity. Qed.

Lemma al_see :
  (forall e a fs, along R (see_expr conc rec e a fs))
  /\ (forall t a fs, along R (see_typ conc rec t a fs))
  /\ (forall at_ a fs, along R (see_atom conc rec at_ a fs)).
Proof.
  apply (Resolve_proofs.trees_all (fun e => forall a fs, along R (see_expr conc rec e a fs))
    (fun t => forall a fs, along R (see_typ conc rec t a fs)) (fun at_ => forall a fs, along R (see_atom conc rec at_ a fs))).
  - intros t Q a fs. exact (Q a fs).
  - intros t1 t2 ts Q1 Q2 Qs a fs. rewrite see_union_eq. rewrite Forall_forall in Qs.
    apply (al_bind _ Rt); [apply Conc|]. intros _. apply (al_bind _ Rt); [apply (al_hp _ Rc)|]. intros b.
    apply (al_bind _ Rt); [apply al_fresh|]. intros x1. apply (al_bind _ Rt); [apply Q1|]. intros _.
    apply (al_bind _ Rt); [apply al_fresh|]. intros x2. apply (al_bind _ Rt); [apply Q2|]. intros _.
    apply (al_bind _ Rt); [exact (al_see_members (b_loc b) (see_typ conc rec) ts Qs)|]. intros xs.
    apply (al_bind _ Rt); [apply (al_hp _ Rc)|]. intros. apply (al_hp _ Rc).
  - intros at_ Q a fs. exact (Q a fs).
  - intros at_ Q a fs. rewrite see_array_eq.
    apply (al_bind _ Rt); [apply Conc|]. intros _. apply (al_bind _ Rt); [apply (al_hp _ Rc)|]. intros b.
    apply (al_bind _ Rt); [apply al_fresh|]. intros x. apply (al_bind _ Rt); [apply Q|]. intros _. apply (al_hp _ Rc).
  - intros at_ Q a fs. rewrite see_optional_eq.
    apply (al_bind _ Rt); [apply Conc|]. intros _. apply (al_bind _ Rt); [apply (al_hp _ Rc)|]. intros b.
    apply (al_bind _ Rt); [apply al_fresh|]. intros x. apply (al_bind _ Rt); [apply Q|]. intros _.
    apply (al_bind _ Rt); [apply al_fresh|]. intros y. apply (al_bind _ Rt); [apply (al_hp _ Rc)|]. intros. apply (al_hp _ Rc).
  - intros t a fs. apply Conc.
  - intros e Q a fs. exact (Q a fs).
  - intros s o a fs. apply al_see_ref.
Qed.

Lemma al_settle_each l : along R (settle_each rec l).
Proof. induction l as [|x l IH]; cbn; [apply (al_ret _ Rc)|]. apply (al_bind _ Rt); [apply Rec|]. intros. exact IH. Qed.
End See.

Lemma al_parse_dt m x : along R (parse_dt E m x).
Proof.
  intros p a p' H. apply (grow_weak [] none none (fun q => rank q <= rank x)); [auto|exact (fun _ _ => Logic.I)|].
  refine (proj1 (files_index m x [] _) p a p' H). intros q [].
Qed.

Lemma al_conc m a t fs : along R (concrete_yaml E (parse_dt E m) (parse_ne E) a t fs).
Proof.
  unfold concrete_yaml. apply (al_bind _ Rt); [apply (al_hp _ Rc)|]. intros b.
  apply (al_concrete R Rc Rt E (parse_dt E m) (fun v => shape_yaml E (parse_dt E m) (parse_ne E) v) (b_loc b) (fun _ => True)); auto.
  intros v name _. apply (al_shape_yaml R Rc Rt E). intros t' _ _ _. split; [apply al_parse_dt|now apply parse_ne_grow].
Qed.

Lemma al_settle m n : forall a, along R (settle E m n a).
Proof.
  induction n as [|n IH]; intros a; [apply (al_lift _ Rc)|]. cbn [settle].
  apply (al_bind _ Rt); [apply (al_hp _ Rc)|]. intros b. apply (al_bind _ Rt); [apply (al_get _ Rc)|]. intros p.
  destruct (b_shape b) as [sh|]; [|apply (al_lift _ Rc)]. destruct sh; try apply (al_ret _ Rc).
  destruct (b_link b).
  { apply (al_bind _ Rt); [apply (al_hp _ Rc)|]. intros [ds|]; [|apply (al_lift _ Rc)]. apply (al_bind _ Rt); [apply IH|]. intros _.
    apply (al_bind _ Rt); [apply (al_hp _ Rc)|]. intros. apply al_conc. }
  destruct (String.eqb _ _).
  { apply (al_bind _ Rt); [apply (al_hp _ Rc)|]. intros ps. apply (al_bind _ Rt); [apply al_settle_each, IH|]. intros _.
    destruct ps; [apply (al_lift _ Rc)|]. apply (al_bind _ Rt); [apply (al_hp _ Rc)|]. intros. apply al_conc. }
  destruct (read_type _); [|apply (al_lift _ Rc)]. apply al_see; [apply al_conc|exact IH].
Qed.

Lemma settle_all_index m n k : forall good p p', settle_all E m n k good p = (Ok true, p') -> good = true /\ R p p'.
Proof.
  induction k as [|k IH]; intros good p p' H; [discriminate|]. cbn [settle_all] in H. unfold dbind at 1, dget in H.
  destruct (p_todo p) as [|a l]; [injection H as -> <-; split; [reflexivity|apply grow_refl]|].
  unfold dbind at 1, dtry in H. destruct (settle E m n a p) as [[u| | |] p1] eqn:Es; try discriminate;
    unfold dbind, drop_todo in H; apply IH in H; destruct H as [Gd H]; [|discriminate].
  split; [exact Gd|]. apply (Rt _ p1); [exact (al_settle _ _ _ _ _ _ Es)|]. eapply Rt; [|exact H]. apply Rc. repeat split.
Qed.

Lemma resolve_index n p u p' : resolve_fragment E n p = (Ok u, p') -> R p p'.
Proof.
  intros H. unfold resolve_fragment in H. unfold dbind at 1 in H. destruct (settle_all E n n n true p) as [[ok| | |] p1] eqn:Es; try discriminate.
  destruct ok; [|discriminate]. unfold dbind, dret in H. apply settle_all_index in Es. destruct Es as [_ Es]. apply (Rt _ p1); [exact Es|].
  destruct (resolve_exts (raml_of p1) (p_exts p1)) as [[good l]| | |]; try discriminate. destruct good; [|discriminate]. injection H as _ <-.
  apply Rc. repeat split.
Qed.

Lemma parse_index n O o1 o2 o3 v text path ep p : e_read (d_y E) path = Some text ->
  parse_string E n O o1 o2 o3 false v text path = (Ok ep, p) -> inv [] p.
Proof.
  intros Rdp H. unfold parse_string, parse_fragment in H. unfold dbind at 1 in H.
  destruct (decode_fragment E n text path new_raml) as [[e| | |] p1] eqn:D; try discriminate. pose proof (fragment_index _ _ _ _ _ Rdp D) as I1.
  unfold dbind at 1 in H. destruct (resolve_fragment E n p1) as [[u| | |] p2] eqn:Er; try discriminate.
  destruct (resolve_index _ _ _ _ Er I1) as [I2 _]. unfold dbind at 1, dret at 1 in H.
  destruct v; unfold dbind, dret in H; [|injection H as _ <-; exact I2].
  destruct (validate_shapes n O o3 (raml_of p2) (p_st p2)) as [[w| | |] s]; try discriminate. injection H as _ <-.
  refine (proj1 (Rc p2 _ _ I2)). repeat split.
Qed.

Lemma inv_finds p : inv [] p -> finds_all p /\ (single_keys E -> finds_only p).
Proof.
  intros [Lt Ex]. split.
  - intros path l lib Q N. destruct (Ex path (fun J => J)) as [[A _] [B _]]. unfold here in A, B. rewrite Q, N in A, B.
    split; intros name a H; apply get_part; auto.
  - intros Sk path name a. destruct (Ex path (fun J => J)) as [[_ A] [_ B]]. specialize (A Sk name a). specialize (B Sk name a).
    unfold here in A, B. split; intros H; apply get_part in H; [apply A in H|apply B in H];
    (destruct (oget path (p_frags p)) as [[l| |]|]; try discriminate; destruct (nth_error (p_libs p) l) as [lib|] eqn:N; [|discriminate]; exists l, lib; auto).
Qed.
End Index.
