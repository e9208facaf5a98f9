(** Loading tidy files does not panic (C46). *)
From Coq Require Import ZArith List String Bool Ascii Lia.
From Verif Require Import Base Scalars Heap Rdt Resolve Names Yaml Yaml_proofs Spec_Yaml Pipeline Decode Parse Spec_Calm.
From Verif Require Import Heap_lemmas Parse_ends Parse_fresh.
From Verif Require Pipeline_proofs Spec_Resolve Resolve_proofs.
Notation builtin := Spec_Resolve.builtin.
Import ListNotations.
Open Scope string_scope.
Open Scope list_scope.
Open Scope nat_scope.

(** * Heaps *)

Definition object (b : base) : Prop := exists f, b_shape b = Some (SObject f).

(** A type that waits for its parents has some. *)
Definition rooted (h : list cell) (b : base) : Prop :=
  b_shape b = Some SUnknown -> b_link b = None -> b_type b = "composite" ->
  exists l, get_slice h (b_inherits b) = Some l /\ l <> [].

Record cells (h : list cell) : Prop := {
  c_cells : forall x c, nth_error h x = Some c -> cell_ok h c;
  c_rooted : forall x b, get_base h x = Some b -> rooted h b
}.

(** What every step keeps, except at [U]. *)
Record hsteps (U : addr -> Prop) (h h' : list cell) : Prop := {
  s_sort : forall x k, has h x k -> has h' x k;
  s_base : forall x b, get_base h x = Some b -> exists b', get_base h' x = Some b' /\ b_loc b' = b_loc b
    /\ (~ U x -> (~ hollow b -> ~ hollow b') /\ (object b -> object b'));
  s_slice : forall x l, get_slice h x = Some l -> l <> [] -> exists l', get_slice h' x = Some l' /\ l' <> []
}.

Lemma hsteps_refl U h : hsteps U h h.
Proof. split; eauto 8. Qed.

Lemma hsteps_trans U h1 h2 h3 : hsteps U h1 h2 -> hsteps U h2 h3 -> hsteps U h1 h3.
Proof.
  intros [A B C] [A' B' C']. split; auto.
  - intros x b G. destruct (B _ _ G) as (b1 & G1 & L1 & K1). destruct (B' _ _ G1) as (b2 & G2 & L2 & K2).
    exists b2. split; auto. split; [congruence|]. intros N. destruct (K1 N), (K2 N). auto.
  - intros x l G N. destruct (C _ _ G N) as (l1 & G1 & N1). eauto.
Qed.

Definition none (x : addr) : Prop := False.

Lemma hsteps_weak (U V : addr -> Prop) h h' : (forall x, U x -> V x) -> hsteps U h h' -> hsteps V h h'.
Proof. intros W [A B C]. split; auto. intros x b G. destruct (B _ _ G) as (b' & G' & L & K). exists b'. split; [auto|]. split; [auto|]. intros N. apply K. auto. Qed.

(** A type that was not known may become anything. *)
Lemma hsteps_hollow h h' a b : get_base h a = Some b -> hollow b -> hsteps (eq a) h h' -> hsteps none h h'.
Proof.
  intros Ga Ha [A B C]. split; auto. intros x bx G. destruct (B _ _ G) as (b' & G' & L & K). exists b'. split; auto. split; auto. intros _.
  destruct (Nat.eq_dec a x) as [->|D]; [|auto]. rewrite Ga in G. injection G as <-. split; [tauto|].
  intros (f & S). destruct Ha as [Q|Q]; congruence.
Qed.

Lemma rooted_steps U h h' b : hsteps U h h' -> rooted h b -> rooted h' b.
Proof. intros S R A B C. destruct (R A B C) as (l & G & N). eapply s_slice; eauto. Qed.

(** Writing a container. *)
Lemma put_box U h a c c' : nth_error h a = Some c -> sort_of c' = sort_of c -> sort_of c <> TBase -> cell_ok h c' ->
  (forall l l', c = CSlice l -> c' = CSlice l' -> l <> [] -> l' <> []) ->
  cells h -> cells (upd a c' h) /\ hsteps U h (upd a c' h).
Proof.
  intros N S NB K Sl [A R].
  assert (M : forall x k, has h x k -> has (upd a c' h) x k) by (intros x k; apply (has_upd _ _ _ _ _ _ N S)).
  assert (BE : forall x b, get_base (upd a c' h) x = Some b -> get_base h x = Some b).
  { intros x b Gb. apply get_base_upd in Gb. destruct Gb as [|[-> ->]]; auto. cbn in S. congruence. }
  assert (BB : forall x b, get_base h x = Some b -> get_base (upd a c' h) x = Some b).
  { intros x b Gb. apply get_base_nth. apply get_base_nth in Gb. rewrite nth_error_upd_neq; auto. intros <-. rewrite N in Gb. injection Gb as ->. now apply NB. }
  assert (St : hsteps U h (upd a c' h)).
  { split; auto.
    - intros x b G. exists b. auto 6.
    - intros x l G NL. apply get_slice_nth in G. destruct (Nat.eq_dec x a) as [->|D].
      + rewrite N in G. injection G as ->. destruct c'; try discriminate. exists l0. split; [|eapply Sl; eauto].
        apply get_slice_nth. eapply nth_error_upd_eq; eauto.
      + exists l. split; auto. apply get_slice_nth. rewrite nth_error_upd_neq by auto. auto. }
  split; [|exact St]. split.
  - intros x c0 Q. destruct (Nat.eq_dec x a) as [->|Dx].
    + rewrite (nth_error_upd_eq _ _ _ _ N) in Q. injection Q as <-. eapply cell_ok_mono; eauto.
    + rewrite nth_error_upd_neq in Q by auto. eapply cell_ok_mono; eauto.
  - intros x b G. eapply rooted_steps; [exact St|]. apply BE in G. eauto.
Qed.

(** Writing a base. *)
Lemma put_base (U : addr -> Prop) h a b b' : get_base h a = Some b -> base_ok h b' -> b_loc b' = b_loc b -> rooted h b' ->
  (U a \/ ((~ hollow b -> ~ hollow b') /\ (object b -> object b'))) ->
  cells h -> cells (upd a (CBase b') h) /\ hsteps U h (upd a (CBase b') h).
Proof.
  intros Ga K L Ro Kn [A R]. pose proof (proj1 (get_base_nth _ _ _) Ga) as N.
  assert (M : forall x k, has h x k -> has (upd a (CBase b') h) x k) by (intros x k; apply (has_upd h a (CBase b) (CBase b') x k N eq_refl)).
  assert (Ga' : get_base (upd a (CBase b') h) a = Some b').
  { apply get_base_nth. eapply nth_error_upd_eq; eauto. }
  assert (St : hsteps U h (upd a (CBase b') h)).
  { split; auto.
    - intros x bx G. destruct (Nat.eq_dec x a) as [->|D].
      + rewrite Ga in G. injection G as <-. exists b'. split; auto. split; auto. intros NU. destruct Kn; tauto.
      + exists bx. split; [|auto]. apply get_base_nth. apply get_base_nth in G. rewrite nth_error_upd_neq by auto. auto.
    - intros x l G NL. exists l. split; auto. apply get_slice_nth. apply get_slice_nth in G. rewrite nth_error_upd_neq; auto. intros ->. congruence. }
  split; [|exact St]. split.
  - intros x c0 Qx. destruct (Nat.eq_dec x a) as [->|Dx].
    + rewrite (nth_error_upd_eq _ _ _ _ N) in Qx. injection Qx as <-. eapply cell_ok_mono; eauto.
    + rewrite nth_error_upd_neq in Qx by auto. eapply cell_ok_mono; eauto.
  - intros x bx G. eapply rooted_steps; [exact St|]. apply get_base_upd in G. destruct G as [G|[-> Q]]; [eauto|]. now injection Q as <-.
Qed.

(** Allocating a container. *)
Lemma new_box U h c : sort_of c <> TBase -> cell_ok h c -> cells h ->
  cells (h ++ [c]) /\ hsteps U h (h ++ [c]) /\ has (h ++ [c]) (List.length h) (sort_of c)
  /\ (forall x b, get_base (h ++ [c]) x = Some b -> get_base h x = Some b).
Proof.
  intros NB K [A R].
  assert (BE : forall x b, get_base (h ++ [c]) x = Some b -> get_base h x = Some b).
  { intros x b Gb. apply get_base_snoc in Gb. destruct Gb as [|[_ ->]]; auto. now destruct NB. }
  assert (St : hsteps U h (h ++ [c])).
  { split.
    - intros; now apply has_snoc.
    - intros x b G. exists b. split; [now apply get_base_old|]. auto.
    - intros x l G NL. exists l. split; auto. apply get_slice_nth. apply get_slice_nth in G. rewrite nth_error_app1; auto. eapply nth_error_lt; eauto. }
  split; [|split; [exact St|split; [apply has_new|exact BE]]]. split.
  - intros x c0 Q. eapply cell_ok_mono; [intros; now apply has_snoc; eauto|]. destruct (Nat.eq_dec x (List.length h)) as [->|Dx].
    + rewrite nth_error_snoc in Q. now injection Q as <-.
    + rewrite nth_error_snoc_old in Q by auto. eauto.
  - intros x b G. eapply rooted_steps; [exact St|]. apply BE in G. eauto.
Qed.

(** A new base. *)
Lemma new_base_ok nm loc s : cells (heap s) -> exists a s' b, make_base nm loc s = (Ok a, s') /\ cells (heap s') /\ hsteps none (heap s) (heap s')
  /\ get_base (heap s') a = Some b /\ b_loc b = loc /\ b_shape b = None /\ List.length (heap s) <= a.
Proof.
  intros C. unfold make_base, bind, gen_id, alloc, put_shape, ret. cbn. set (h := heap s) in *.
  set (b0 := Base _ _ _ _ _ _ _ _ _ _ _ _ _ _ _ _ _ _ _).
  destruct (new_box none h (CFacets []) ltac:(discriminate) I C) as (C1 & S1 & N1 & _).
  destruct (new_box none (h ++ [CFacets []]) (CProps []) ltac:(discriminate) ltac:(split; [constructor|intros ? ? []]) C1) as (C2 & S2 & N2 & _).
  destruct (new_box none ((h ++ [CFacets []]) ++ [CProps []]) (CSlice []) ltac:(discriminate) ltac:(intros ? []) C2) as (C3 & S3 & N3 & _).
  set (h3 := ((h ++ [CFacets []]) ++ [CProps []]) ++ [CSlice []]) in *.
  assert (S13 : hsteps none h h3) by (eapply hsteps_trans; [exact S1|]; eapply hsteps_trans; eauto).
  assert (Kb : base_ok h3 b0).
  { split; unfold b0; cbn; try discriminate; auto.
    - apply (s_sort _ _ _ S3), (s_sort _ _ _ S2). exact N1.
    - apply (s_sort _ _ _ S3). exact N2. }
  assert (M : forall x k, has h3 x k -> has (h3 ++ [CBase b0]) x k) by (intros; now apply has_snoc).
  assert (St : hsteps none h3 (h3 ++ [CBase b0])).
  { split; auto.
    - intros x b G. exists b. split; [now apply get_base_old|]. auto.
    - intros x l G NL. exists l. split; auto. apply get_slice_nth. apply get_slice_nth in G. rewrite nth_error_app1; auto. eapply nth_error_lt; eauto. }
  eexists _, _, b0. split; [reflexivity|]. cbn [heap]. split; [|split; [eapply hsteps_trans; eauto|]].
  - split.
    + intros x c0 Q. eapply cell_ok_mono; [exact M|]. destruct (Nat.eq_dec x (List.length h3)) as [->|Dx].
      * rewrite nth_error_snoc in Q. injection Q as <-. exact Kb.
      * rewrite nth_error_snoc_old in Q by auto. exact (c_cells _ C3 _ _ Q).
    + intros x b G. apply get_base_snoc in G. destruct G as [G|[_ Q]].
      * eapply rooted_steps; [exact St|]. exact (c_rooted _ C3 _ _ G).
      * injection Q as <-. unfold b0. intros X. discriminate X.
  - split; [apply get_base_nth; apply nth_error_snoc|]. split; [reflexivity|]. split; [reflexivity|]. unfold h3. rewrite !app_length. lia.
Qed.

(** * The RAML object *)

Section Calm.
Variable E : denv.
Variable role : string -> kind.
Hypothesis Yaml : forall text d, e_yaml (d_y E) text = Some d -> parsed d.
(** No library is loaded, so that errors leave nothing incomplete behind. *)
Variable sealed : Prop.

Definition links_ok (p : pst) (u : omap (option nat)) : Prop := forall n l, In (n, Some l) u -> l < List.length (p_libs p).

Definition frag_ok (p : pst) (path : string) (f : fragment) : Prop :=
  match f with
  | FLib l => role path = KLibrary /\ l < List.length (p_libs p)
  | FDT u o => role path = KDataType /\ (exists y, o = Some y /\ isb p y) /\ oget path (p_dts p) <> None /\ links_ok p u
  | FNE => role path = KNamedExample
  end.

Definition lib_ok (p : pst) (lib : library) : Prop :=
  (forall k a, In (k, a) (l_types lib) \/ In (k, a) (l_annots lib) -> isb p a) /\ links_ok p (l_uses lib).

(** A node of a type declaration in the file [loc]. *)
Definition node_ok (loc : string) (v : ynode) : Prop := parsed v /\ tidy_type E role loc v.

Definition facet_ok (loc k : string) (v : ynode) : Prop :=
  parsed v /\ (k = "items" -> node_ok loc v)
  /\ (k = "properties" -> forall qs k' w, pairs_of (y_content v) qs -> In (k', w) qs -> node_ok loc w).

Definition facets_ok (loc : string) (fs : option fnodes) : Prop := forall l k v, fs = Some l -> In (k, v) l -> facet_ok loc k v.

Record sane (p : pst) : Prop := {
  a_cells : cells (H_ p);
  a_todo : forall x, In x (p_todo p) -> isb p x;
  a_dts : forall path x, In (path, x) (p_dts p) -> has (H_ p) x TDT;
  a_frags : forall path f, In (path, f) (p_frags p) -> frag_ok p path f;
  a_libs : forall lib, In lib (p_libs p) -> lib_ok p lib;
  a_facets : forall a fs, In (a, fs) (p_facets p) -> exists b, get_base (H_ p) a = Some b /\ facets_ok (b_loc b) fs
}.

Record steps (U : addr -> Prop) (p p' : pst) : Prop := {
  st_heap : hsteps U (H_ p) (H_ p');
  st_libs : List.length (p_libs p) <= List.length (p_libs p')
}.

Lemma steps_refl U p : steps U p p.
Proof. split; auto. apply hsteps_refl. Qed.
Lemma steps_trans U p1 p2 p3 : steps U p1 p2 -> steps U p2 p3 -> steps U p1 p3.
Proof. intros [A B] [A' B']. split; [eapply hsteps_trans; eauto|lia]. Qed.
Lemma steps_weak (U V : addr -> Prop) p p' : (forall x, U x -> V x) -> steps U p p' -> steps V p p'.
Proof. intros W [A B]. split; auto. eapply hsteps_weak; eauto. Qed.

(** All links are set. *)
Definition linked (u : omap (option nat)) : Prop := forall n, oget n u <> Some None.

(** What a computation that succeeds adds is complete. *)
Record grown (p p' : pst) : Prop := {
  n_libs : forall i lib, nth_error (p_libs p) i = Some lib -> nth_error (p_libs p') i = Some lib;
  n_lib : forall i lib, List.length (p_libs p) <= i -> nth_error (p_libs p') i = Some lib -> linked (l_uses lib);
  n_old : forall path f, oget path (p_frags p) = Some f -> oget path (p_frags p') = Some f;
  n_new : forall path u o, oget path (p_frags p) = None -> oget path (p_frags p') = Some (FDT u o) -> linked u
}.

Lemma grown_refl p : grown p p.
Proof.
  split; auto; try congruence. intros i lib L N. apply nth_error_None in L. congruence.
Qed.

Lemma grown_trans p1 p2 p3 : grown p1 p2 -> grown p2 p3 -> grown p1 p3.
Proof.
  intros [A B C D] [A' B' C' D']. split; auto.
  - intros i lib L N. destruct (nth_error (p_libs p2) i) as [lib2|] eqn:N2.
    + pose proof (A' _ _ N2) as X. rewrite N in X. injection X as ->. eauto.
    + apply nth_error_None in N2. eauto.
  - intros path u o N O. destruct (oget path (p_frags p2)) as [f|] eqn:O2; [|eauto].
    pose proof (C' _ _ O2) as X. rewrite O in X. injection X as <-. eauto.
Qed.

Lemma grown_same p p' : p_libs p' = p_libs p -> p_frags p' = p_frags p -> grown p p'.
Proof.
  intros A B. split; rewrite ?A, ?B; auto; try congruence. intros i lib L N. apply nth_error_None in L. congruence.
Qed.

(** ** Triples *)

Definition calm (U : addr -> Prop) {A} (m : D A) (Pre : pst -> Prop) (Post : A -> pst -> Prop) : Prop :=
  forall p, sane p -> Pre p ->
    match m p with
    | (Ok a, p') => sane p' /\ steps U p p' /\ grown p p' /\ Post a p'
    | (Err, p') => sane p' /\ steps U p p' /\ (sealed -> grown p p')
    | (Panic, _) => False
    | (OutOfFuel, _) => True
    end.

Definition firm (U : addr -> Prop) (P : pst -> Prop) : Prop := forall p p', steps U p p' -> P p -> P p'.

Lemma calm_ret U {A} (x : A) (Pre : pst -> Prop) (Post : A -> pst -> Prop) : (forall p, Pre p -> Post x p) -> calm U (dret x) Pre Post.
Proof. intros H p S P. cbn. split; auto. split; [apply steps_refl|]. split; [apply grown_refl|auto]. Qed.

Lemma calm_lift U {A} (r : res A) (Pre : pst -> Prop) (Post : A -> pst -> Prop) :
  r <> Panic -> (forall x p, r = Ok x -> Pre p -> Post x p) -> calm U (dlift r) Pre Post.
Proof.
  intros N H p S P. cbn. destruct r; auto.
  - split; auto. split; [apply steps_refl|]. split; [apply grown_refl|auto].
  - split; auto. split; [apply steps_refl|intros; apply grown_refl].
Qed.

Lemma calm_err U {A} Pre (Post : A -> pst -> Prop) : calm U (dlift Err) Pre Post.
Proof. apply calm_lift; discriminate. Qed.

Lemma calm_bind U {A B} (m : D A) (f : A -> D B) (Pre : pst -> Prop) Q (Post : B -> pst -> Prop) :
  firm U Pre -> calm U m Pre Q -> (forall a, calm U (f a) (fun p => Pre p /\ Q a p) Post) -> calm U (dbind m f) Pre Post.
Proof.
  intros Fi Hm Hf p S P. unfold dbind. specialize (Hm p S P). destruct (m p) as [[a| | |] p1]; auto.
  destruct Hm as (S1 & W1 & G1 & Q1). pose proof (Hf a p1 S1 (conj (Fi _ _ W1 P) Q1)) as H.
  destruct (f a p1) as [[b| | |] p2]; auto.
  - destruct H as (S2 & W2 & G2 & P2). split; auto. split; [eapply steps_trans; eauto|]. split; [eapply grown_trans; eauto|auto].
  - destruct H as (S2 & W2 & G2). split; auto. split; [eapply steps_trans; eauto|]. intros X. eapply grown_trans; eauto.
Qed.

Lemma calm_sub U {A} (m : D A) (Pre Pre' : pst -> Prop) (Post Post' : A -> pst -> Prop) :
  (forall p, Pre' p -> Pre p) -> (forall a p, Post a p -> Post' a p) -> calm U m Pre Post -> calm U m Pre' Post'.
Proof.
  intros X Y H p S P. specialize (H p S (X p P)). destruct (m p) as [[a| | |] p1]; auto. intuition.
Qed.

Lemma calm_pre U {A} (m : D A) (Pre Pre' : pst -> Prop) (Post : A -> pst -> Prop) :
  (forall p, Pre' p -> Pre p) -> calm U m Pre Post -> calm U m Pre' Post.
Proof. intros X. apply calm_sub; auto. Qed.

Lemma calm_weak (U V : addr -> Prop) {A} (m : D A) Pre (Post : A -> pst -> Prop) : (forall x, U x -> V x) -> calm U m Pre Post -> calm V m Pre Post.
Proof.
  intros W H p S P. specialize (H p S P). destruct (m p) as [[a| | |] p1]; auto.
  - destruct H as (A1 & B & C & D). split; auto. split; auto. eapply steps_weak; eauto.
  - destruct H as (A1 & B & C). split; auto. split; auto. eapply steps_weak; eauto.
Qed.

(** A fact that does not depend on the state. *)
Lemma calm_pure U {A} (m : D A) (P : Prop) (Pre : pst -> Prop) (Post : A -> pst -> Prop) :
  (P -> calm U m Pre Post) -> calm U m (fun p => P /\ Pre p) Post.
Proof. intros H p S [X Y]. exact (H X p S Y). Qed.

Lemma firm_true U : firm U (fun _ => True). Proof. intros p p' _ _. exact I. Qed.
Lemma firm_const U (P : Prop) : firm U (fun _ => P). Proof. intros p p' _ H. exact H. Qed.
Lemma firm_has U a k : firm U (fun p => has (H_ p) a k). Proof. intros p p' [[A _ _] _]. apply A. Qed.
Lemma firm_isb U a : firm U (fun p => isb p a). Proof. apply firm_has. Qed.
Lemma firm_and U P Q : firm U P -> firm U Q -> firm U (fun p => P p /\ Q p).
Proof. intros A B p p' W [X Y]. split; [eapply A|eapply B]; eauto. Qed.
Lemma firm_known (U : addr -> Prop) a : ~ U a -> firm U (fun p => known (H_ p) a).
Proof.
  intros N p p' [[_ B _] _] (b & G & K). destruct (B _ _ G) as (b' & G' & _ & X). exists b'. split; auto. now apply X.
Qed.

(** The type [a] was declared in [loc]. *)
Definition lies (loc : string) (a : addr) (p : pst) : Prop := exists b, get_base (H_ p) a = Some b /\ b_loc b = loc.
Lemma firm_lies U loc a : firm U (lies loc a).
Proof. intros p p' [[_ B _] _] (b & G & L). destruct (B _ _ G) as (b' & G' & L' & _). exists b'. split; auto. congruence. Qed.

Lemma lies_isb loc a p : lies loc a p -> isb p a.
Proof. intros (b & G & _). eapply get_base_has; eauto. Qed.

Definition has_object (a : addr) (p : pst) : Prop := exists b, get_base (H_ p) a = Some b /\ object b.
Lemma firm_object (U : addr -> Prop) a : ~ U a -> firm U (has_object a).
Proof. intros N p p' [[_ B _] _] (b & G & K). destruct (B _ _ G) as (b' & G' & _ & X). exists b'. split; auto. now apply X. Qed.

(** ** Steps *)

Lemma frag_ok_mono p p' path f : (forall x k, has (H_ p) x k -> has (H_ p') x k) -> List.length (p_libs p) <= List.length (p_libs p') ->
  (forall x, oget x (p_dts p) <> None -> oget x (p_dts p') <> None) -> frag_ok p path f -> frag_ok p' path f.
Proof.
  intros M L D. destruct f; cbn; auto.
  - intros [A B]. split; auto. lia.
  - intros (A & (y & B1 & B2) & C & F). split; auto. split; [exists y; split; auto; now apply M|]. split; auto. intros n l J. specialize (F n l J). lia.
Qed.

Lemma lib_ok_mono p p' lib : (forall x k, has (H_ p) x k -> has (H_ p') x k) -> List.length (p_libs p) <= List.length (p_libs p') ->
  lib_ok p lib -> lib_ok p' lib.
Proof. intros M L [A B]. split; [intros k a J; apply M; exact (A k a J)|]. intros n l J. specialize (B n l J). lia. Qed.

Lemma sane_st U p s' : sane p -> cells (heap s') -> hsteps U (H_ p) (heap s') -> sane (with_st p s').
Proof.
  intros [A B C D F G] K W. pose proof (s_sort _ _ _ W) as M. split; cbn; auto.
  - intros x J. apply M. now apply B.
  - intros path x J. apply M. eauto.
  - intros path f J. eapply (frag_ok_mono p); cbn; auto.
  - intros lib J. eapply (lib_ok_mono p); cbn; auto.
  - intros a fs J. destruct (G _ _ J) as (b & Gb & O). destruct (s_base _ _ _ W _ _ Gb) as (b' & G' & L & _). exists b'. split; auto. now rewrite L.
Qed.

Lemma steps_st U p s' : hsteps U (H_ p) (heap s') -> steps U p (with_st p s').
Proof. intros H. split; auto. Qed.

Lemma calm_hp U {A} (m : M A) (Pre : pst -> Prop) (Post : A -> pst -> Prop) :
  (forall p, sane p -> Pre p -> exists a s', m (p_st p) = (Ok a, s') /\ cells (heap s') /\ hsteps U (H_ p) (heap s') /\ Post a (with_st p s')) ->
  calm U (hp m) Pre Post.
Proof.
  intros H p S P. destruct (H p S P) as (a & s' & R & C & W & Q). unfold hp. rewrite R. fold (with_st p s').
  split; [eapply sane_st; eauto|]. split; [now apply steps_st|]. split; [now apply grown_same|exact Q].
Qed.

Lemma with_same p : with_st p (p_st p) = p. Proof. destruct p; reflexivity. Qed.

Lemma calm_rd U {A} (get : list cell -> addr -> option A) a (Pre : pst -> Prop) :
  (forall p, sane p -> Pre p -> exists x, get (H_ p) a = Some x) ->
  calm U (hp (rd get a)) Pre (fun x p => get (H_ p) a = Some x /\ Pre p).
Proof.
  intros H. apply calm_hp. intros p S P. destruct (H p S P) as (x & G). exists x, (p_st p). unfold rd. unfold H_ in G. rewrite G. rewrite with_same.
  split; [reflexivity|]. split; [exact (a_cells _ S)|]. split; [apply hsteps_refl|]. auto.
Qed.

Lemma base_at p a b : sane p -> get_base (H_ p) a = Some b -> base_ok (H_ p) b.
Proof. intros S G. apply get_base_nth in G. exact (c_cells _ (a_cells _ S) _ _ G). Qed.

Lemma calm_rd_base U a (Pre : pst -> Prop) : (forall p, Pre p -> isb p a) ->
  calm U (hp (rd get_base a)) Pre (fun b p => get_base (H_ p) a = Some b /\ Pre p).
Proof. intros H. apply calm_rd. intros p S P. apply has_base. now apply H. Qed.

(** Changing a base. *)
Lemma calm_upd U a f (Pre : pst -> Prop) (Post : unit -> pst -> Prop) :
  (forall p b, sane p -> Pre p -> get_base (H_ p) a = Some b -> base_ok (H_ p) (f b) /\ b_loc (f b) = b_loc b /\ rooted (H_ p) (f b)
     /\ (U a \/ ((~ hollow b -> ~ hollow (f b)) /\ (object b -> object (f b))))) ->
  (forall p b, sane p -> Pre p -> get_base (H_ p) a = Some b ->
     Post tt (with_st p (St (upd a (CBase (f b)) (heap (p_st p))) (st_shapes (p_st p)) (st_nextid (p_st p))))) ->
  (forall p, Pre p -> isb p a) -> calm U (hp (upd_base a f)) Pre Post.
Proof.
  intros H Po B. apply calm_hp. intros p S P. pose proof (B p P) as Ba. apply has_base in Ba. destruct Ba as (b & G).
  destruct (H p b S P G) as (K & L & R & Kn). destruct (put_base U (H_ p) a b (f b) G K L R Kn (a_cells _ S)) as [C W].
  eexists tt, _. unfold upd_base, bind, rd. unfold H_ in G. rewrite G. cbn. split; [reflexivity|]. cbn. split; [exact C|]. split; [exact W|]. now apply Po.
Qed.

Lemma calm_soft U a f (Pre : pst -> Prop) : soft f -> (forall b, b_loc (f b) = b_loc b) -> (forall p, Pre p -> isb p a) -> calm U (hp (upd_base a f)) Pre any_.
Proof.
  intros S L B. apply calm_upd; auto; [|intros; exact I]. intros p b Sp P G.
  destruct (S b) as ((S1 & S2 & S3 & S4) & (S5 & S6 & S7) & (S8 & S9 & S10)). pose proof (base_at _ _ _ Sp G) as K. split.
  - destruct K as [K1 K2 K3 K4 K5 K6 K7 K8]. split; rewrite ?S2, ?S3, ?S4, ?S5, ?S6, ?S7, ?S8, ?S9, ?S10; auto.
  - split; auto. split.
    + unfold rooted. rewrite S2, S3, S5, S10. exact (c_rooted _ (a_cells _ Sp) _ _ G).
    + right. unfold hollow, object. rewrite S10. auto.
Qed.

Lemma soft_loc_all : (forall x b, b_loc (set_disp x b) = b_loc b) /\ (forall x b, b_loc (set_desc x b) = b_loc b)
  /\ (forall x b, b_loc (set_required x b) = b_loc b) /\ (forall x b, b_loc (set_example x b) = b_loc b)
  /\ (forall x b, b_loc (set_examples x b) = b_loc b) /\ (forall x b, b_loc (set_default x b) = b_loc b)
  /\ (forall x b, b_loc (set_domain x b) = b_loc b).
Proof. repeat split. Qed.

Lemma calm_props_set U m k pr : calm U (hp (props_set m k pr)) (fun p => has (H_ p) m TProps /\ isb p (p_base pr)) any_.
Proof.
  apply calm_hp. intros p S [Hm Hp]. destruct (has_props _ _ Hm) as (l & G). pose proof (proj1 (get_props_nth _ _ _) G) as N.
  assert (C : cell_ok (H_ p) (CProps (oset k pr l))).
  { pose proof (c_cells _ (a_cells _ S) _ _ N) as [D B]. cbn. split; [now apply Yaml_proofs.oset_keys|]. intros k0 p0 J. apply Parse_fresh.in_oset in J. destruct J as [Q|J0]; [subst p0; exact Hp|]. exact (B k0 p0 J0). }
  destruct (put_box U (H_ p) m (CProps l) (CProps (oset k pr l)) N eq_refl ltac:(discriminate) C ltac:(discriminate) (a_cells _ S)) as [C' W].
  eexists tt, _. unfold props_set, bind, rd. unfold H_ in G. rewrite G. split; [reflexivity|]. split; [exact C'|]. split; [exact W|exact I].
Qed.

(** ** Nodes *)

Lemma pairs_exist l : Nat.even (List.length l) = true -> exists ps, pairs_of l ps.
Proof.
  induction l as [| |k v l IH] using pair_induction; cbn; intros H; [exists []; constructor|discriminate|].
  destruct (IH H) as (ps & P). eexists. constructor. exact P.
Qed.

Lemma parsed_map t s c : parsed (Y KMap t s c) -> exists ps, pairs_of c ps.
Proof. intros P. inversion P as [? ? ? ? _ _ Ev]; subst. apply pairs_exist. auto. Qed.

Lemma pairs_in l ps k v : pairs_of l ps -> In (k, v) ps -> In v l.
Proof. induction 1; cbn; [tauto|]. intros [Q|J]; [injection Q as _ <-; auto|right; right; auto]. Qed.

Lemma parsed_in v x : parsed v -> In x (y_content v) -> parsed x.
Proof. intros P J. inversion P as [? ? ? ? Fo _ _]; subst. cbn in J. rewrite Forall_forall in Fo. auto. Qed.

Lemma parsed_pair v ps k x : parsed v -> pairs_of (y_content v) ps -> In (k, x) ps -> parsed x.
Proof. intros P Q J. eapply parsed_in; eauto. eapply pairs_in; eauto. Qed.

Lemma pairs_fun l ps qs : pairs_of l ps -> pairs_of l qs -> ps = qs.
Proof. intros P. revert qs. induction P; intros qs Q; inversion Q; subst; auto. f_equal. auto. Qed.

Lemma node_parent loc t s c w : node_ok loc (Y KSeq t s c) -> In w c -> node_ok loc w.
Proof. intros [P T] J. split; [eapply parsed_in; eauto|]. intros x N. apply T. eapply tn_parent; eauto. Qed.

Lemma node_below loc t s c ps key w : node_ok loc (Y KMap t s c) -> pairs_of c ps -> In (key, w) ps -> In key ["type"; "items"] -> node_ok loc w.
Proof.
  intros [P T] Q J K. split; [eapply parsed_pair; [exact P|exact Q|exact J]|]. intros x N. apply T. eapply tn_below; eauto.
Qed.

Lemma node_member loc t s c ps key u qs k w : node_ok loc (Y KMap t s c) -> pairs_of c ps -> In (key, u) ps -> In key ["properties"; "facets"] ->
  pairs_of (y_content u) qs -> In (k, w) qs -> node_ok loc w.
Proof.
  intros [P T] Q J K Q' J'. split.
  - assert (Pu : parsed u) by (eapply parsed_pair; [exact P|exact Q|exact J]). eapply parsed_pair; [exact Pu|exact Q'|exact J'].
  - intros x N. apply T. eapply tn_member; eauto.
Qed.

Lemma node_plain loc v : node_ok loc v -> plain E role loc v.
Proof. intros [_ T]. apply T. constructor. Qed.

(** ** Pure parts *)

Definition quietly {A} (r : res A) : Prop := r <> Panic.

Lemma quietly_bind {A B} (r : res A) (f : A -> res B) : quietly r -> (forall a, r = Ok a -> quietly (f a)) -> quietly (rbind r f).
Proof. unfold quietly. destruct r; cbn; auto; congruence. Qed.

Lemma quietly_or {A} (o : option A) : quietly (or_err o).
Proof. destruct o; discriminate. Qed.

Lemma root_quiet loc v : parsed v -> quietly (root_node (d_y E) loc v).
Proof.
  intros P. destruct (root_node_returns (d_y E) loc v Yaml P) as [(x & Q)|Q]; unfold quietly; rewrite Q; discriminate.
Qed.

Lemma enum_quiet loc v : parsed v -> quietly (make_enum E loc v).
Proof.
  intros P. unfold make_enum. destruct (y_kind v); try discriminate. apply quietly_bind; [|discriminate].
  assert (H : forall l, (forall x, In x l -> parsed x) -> quietly (seq_items (root_node (d_y E) loc) l)).
  { induction l as [|x l IH]; intros H; [discriminate|]. cbn [seq_items]. apply quietly_bind; [apply root_quiet, H; now left|]. intros d _.
    apply quietly_bind; [apply IH; intros; apply H; now right|discriminate]. }
  apply H. intros x. apply parsed_in. exact P.
Qed.

Lemma types_quiet loc l : (forall x, In x l -> parsed x) -> quietly (file_types E loc l).
Proof.
  induction l as [|x l IH]; intros H; [discriminate|]. cbn [file_types]. destruct (String.eqb _ _); [|discriminate].
  apply quietly_bind; [apply root_quiet, H; now left|]. intros d _. apply quietly_bind; [apply IH; intros; apply H; now right|discriminate].
Qed.

Lemma int_quiet loc k v f : parsed v -> quietly (int_facet E loc k v f).
Proof.
  intros P. unfold int_facet.
  repeat (match goal with |- quietly (if ?c then _ else _) => destruct c end; try discriminate);
    try (apply quietly_bind; [first [apply quietly_or|apply enum_quiet; assumption]|discriminate]).
Qed.
Lemma num_quiet loc k v f : parsed v -> quietly (num_facet E loc k v f).
Proof.
  intros P. unfold num_facet.
  repeat (match goal with |- quietly (if ?c then _ else _) => destruct c end; try discriminate);
    try (apply quietly_bind; [first [apply quietly_or|apply enum_quiet; assumption]|discriminate]).
Qed.
Lemma str_quiet loc k v f : parsed v -> quietly (str_facet E loc k v f).
Proof.
  intros P. unfold str_facet.
  repeat (match goal with |- quietly (if ?c then _ else _) => destruct c end; try discriminate);
    try (apply quietly_bind; [first [apply quietly_or|apply enum_quiet; assumption]|discriminate]).
Qed.
Lemma file_quiet loc k v f : parsed v -> quietly (file_facet E loc k v f).
Proof.
  intros P. unfold file_facet.
  repeat (match goal with |- quietly (if ?c then _ else _) => destruct c end; try discriminate);
    try (apply quietly_bind; [apply quietly_or|discriminate]).
  destruct (y_kind v); try discriminate. apply quietly_bind; [|discriminate]. apply types_quiet. intros x. now apply parsed_in.
Qed.
Lemma bool_quiet loc k v : parsed v -> quietly (bool_facet E loc k v).
Proof. intros P. unfold bool_facet. destruct (String.eqb _ _); [|discriminate]. apply quietly_bind; [now apply enum_quiet|discriminate]. Qed.
Lemma time_quiet k v : quietly (time_facet E k v).
Proof.
  unfold time_facet. repeat (match goal with |- quietly (if ?c then _ else _) => destruct c end; try discriminate).
  apply quietly_bind; [apply quietly_or|discriminate].
Qed.
Lemma arr_quiet k v f : quietly (arr_facet E k v f).
Proof.
  unfold arr_facet. repeat (match goal with |- quietly (if ?c then _ else _) => destruct c end; try discriminate);
    (apply quietly_bind; [apply quietly_or|discriminate]).
Qed.
Lemma obj_quiet k v f : quietly (obj_facet E k v f).
Proof.
  unfold obj_facet. repeat (match goal with |- quietly (if ?c then _ else _) => destruct c end; try discriminate);
    (apply quietly_bind; [apply quietly_or|discriminate]).
Qed.

Lemma identify_ok names : quietly (identify_type names) /\ forall t, identify_type names = Ok t -> t <> "composite".
Proof.
  assert (F : forall n ft pat, facet_type n = Some (ft, pat) -> ft <> "composite").
  { intros n ft pat. unfold facet_type. repeat (match goal with |- (if ?c then _ else _) = _ -> _ => destruct c end);
      intros H; try discriminate H; injection H as <- _; discriminate. }
  assert (L : forall names t so, t <> "composite" -> quietly (identify_loop t so names) /\ forall t', identify_loop t so names = Ok t' -> t' <> "composite").
  { clear names. induction names as [|n names IH]; intros t so N; cbn [identify_loop].
    - split; [discriminate|]. intros t' Q. now injection Q as <-.
    - destruct (facet_type n) as [[ft pat]|] eqn:Fn; [|auto]. pose proof (F _ _ _ Fn) as Nf.
      set (q := if String.eqb t "string" then _ else _).
      assert (Q : snd q <> "composite").
      { unfold q. repeat (match goal with |- context [if ?c then _ else _] => destruct c end); cbn; auto; discriminate. }
      destruct q as [t1 ft1]. cbn in Q. destruct (negb _ && _); [split; discriminate|]. now apply IH. }
  destruct (L names "" false ltac:(discriminate)) as [A B]. unfold identify_type, quietly in *.
  destruct (identify_loop "" false names) as [t| | |]; split; try discriminate; try congruence.
  intros t' Q. injection Q as <-. destruct (String.eqb t ""); [discriminate|]. now apply B.
Qed.

(** ** Steps that do not touch the heap *)

Lemma calm_get U (Pre : pst -> Prop) : calm U dget Pre any_.
Proof. intros p S P. cbn. split; auto. split; [apply steps_refl|]. split; [apply grown_refl|exact I]. Qed.

Lemma calm_ext U e (Pre : pst -> Prop) : calm U (put_ext e) Pre any_.
Proof.
  intros p S P. cbn. split; [destruct S; split; auto|]. split; [split; auto; apply hsteps_refl|]. split; [now apply grown_same|exact I].
Qed.
Lemma calm_put_type U n l a (Pre : pst -> Prop) : calm U (put_type n l a) Pre any_.
Proof.
  intros p S P. cbn. split; [destruct S; split; auto|]. split; [split; auto; apply hsteps_refl|]. split; [now apply grown_same|exact I].
Qed.
Lemma calm_put_annot U n l a (Pre : pst -> Prop) : calm U (put_annot n l a) Pre any_.
Proof.
  intros p S P. cbn. split; [destruct S; split; auto|]. split; [split; auto; apply hsteps_refl|]. split; [now apply grown_same|exact I].
Qed.
Lemma calm_todo U a (Pre : pst -> Prop) : (forall p, Pre p -> isb p a) -> calm U (put_todo a) Pre any_.
Proof.
  intros B p S P. cbn. split; [|split; [split; auto; apply hsteps_refl|]; split; [now apply grown_same|exact I]].
  destruct S as [A T C D F G]. split; auto. cbn. intros x J. apply in_app_or in J. destruct J as [J|[<-|[]]]; [now apply T|]. exact (B p P).
Qed.
Lemma calm_facets U a fs loc : facets_ok loc fs -> calm U (put_facets a fs) (lies loc a) any_.
Proof.
  intros O p S (b & Gb & L). cbn. split; [|split; [split; auto; apply hsteps_refl|]; split; [now apply grown_same|exact I]].
  destruct S as [A T C D F G]. split; auto. cbn. intros x f [Q|J]; [|eauto]. injection Q as <- <-. exists b. split; auto. now rewrite L.
Qed.

(** Sequencing when nothing is carried along. *)
Lemma calm_then U {A B} (m : D A) (f : A -> D B) (Pre : pst -> Prop) (Post : B -> pst -> Prop) :
  firm U Pre -> calm U m Pre any_ -> (forall a, calm U (f a) Pre Post) -> calm U (dbind m f) Pre Post.
Proof. intros Fi X Y. apply (calm_bind U _ _ _ any_); auto. intros a. apply (calm_pre U _ Pre); [tauto|auto]. Qed.

Lemma calm_lift_any U {A} (r : res A) (Pre : pst -> Prop) : quietly r -> calm U (dlift r) Pre any_.
Proof. intros Q. apply calm_lift; auto. intros; exact I. Qed.

Lemma calm_make_ext U loc k v (Pre : pst -> Prop) : firm U Pre -> parsed v -> calm U (make_ext E loc k v) Pre any_.
Proof.
  intros Fi P. unfold make_ext. destruct (String.eqb _ _); [apply calm_err|].
  apply calm_then; auto; [apply calm_lift_any; now apply root_quiet|]. intros x. apply calm_then; auto; [apply calm_get|]. intros p.
  apply calm_then; auto; [apply calm_ext|]. intros. apply calm_ret. intros; exact I.
Qed.

Lemma if_quiet (b : bool) : quietly (if b then Ok tt else Err).
Proof. destruct b; discriminate. Qed.

Lemma calm_entries U loc l ps (Pre : pst -> Prop) : firm U Pre -> pairs_of l ps -> (forall x, In x l -> parsed x) -> calm U (example_entries E loc l) Pre any_.
Proof.
  intros Fi. induction 1 as [|k v l ps Q IH]; intros P; [apply calm_ret; intros; exact I|]. cbn [example_entries].
  apply calm_then; auto; [|intros; apply IH; intros; apply P; cbn; auto].
  destruct (String.eqb _ _); [apply calm_lift_any, if_quiet|].
  destruct (_ || _); [apply calm_lift_any, if_quiet|].
  destruct (is_annotation _); [|apply calm_ret; intros; exact I].
  apply calm_then; auto; [apply calm_make_ext; auto; apply P; cbn; auto|]. intros. apply calm_ret. intros; exact I.
Qed.

Lemma value_quiet l ps : pairs_of l ps -> exists o, value_entry l = Ok o /\ forall v, o = Some v -> In v l.
Proof.
  induction 1 as [|k v l ps Q (o & V & IH)]; cbn [value_entry]; [exists None; split; [auto|discriminate]|].
  destruct (String.eqb _ _); [exists (Some v); split; auto; intros w W; injection W as <-; cbn; auto|].
  exists o. split; auto. intros w W. cbn. auto.
Qed.

Lemma calm_example U loc v (Pre : pst -> Prop) : firm U Pre -> parsed v -> calm U (example E loc v) Pre any_.
Proof.
  intros Fi P. unfold example. destruct v as [k t s c]; cbn [y_kind y_content].
  destruct k; try (apply calm_lift_any; now apply root_quiet). destruct (parsed_map _ _ _ P) as (ps & Q).
  destruct (value_quiet _ _ Q) as (o & V & In_). rewrite V. apply (calm_bind U _ _ _ (fun o' _ => o' = o)); auto.
  - apply calm_lift; [discriminate|]. intros x p H _. injection H as <-. reflexivity.
  - intros o'. apply (calm_pre U _ (fun p => o' = o /\ Pre p)); [tauto|]. apply calm_pure. intros ->. destruct o as [x|].
    + apply calm_then; auto; [eapply calm_entries; eauto; intros x0; now apply (parsed_in (Y KMap t s c))|]. intros.
      apply calm_lift_any, root_quiet. apply (parsed_in (Y KMap t s c)); auto.
    + apply calm_lift_any. now apply root_quiet.
Qed.

Lemma calm_example_map U loc l ps (Pre : pst -> Prop) : firm U Pre -> pairs_of l ps -> (forall x, In x l -> parsed x) ->
  forall m, calm U (example_map E loc l m) Pre any_.
Proof.
  intros Fi. induction 1 as [|k v l ps Q IH]; intros P m; [apply calm_ret; intros; exact I|]. cbn [example_map].
  apply calm_then; auto; [apply calm_example; auto; apply P; cbn; auto|]. intros. apply IH. intros; apply P; cbn; auto.
Qed.

(** * Types *)

Section Shape.
Variable inc_dt : string -> D addr.
Variable inc_ne : string -> D unit.
Hypothesis Idt : forall x, role x = KDataType -> calm none (inc_dt x) (fun _ => True) (fun d p => has (H_ p) d TDT).
Hypothesis Ine : forall x, role x = KNamedExample -> calm none (inc_ne x) (fun _ => True) any_.

Section Rec.
Variable rec : ynode -> string -> string -> D addr.
Hypothesis Rec : forall v name loc, node_ok loc v -> calm none (rec v name loc) (fun _ => True) (fun x p => isb p x).

(** With any condition that survives. *)
Lemma calm_frame U {A} (m : D A) (Pre : pst -> Prop) (Post : A -> pst -> Prop) : firm U Pre -> calm U m (fun _ => True) Post ->
  calm U m Pre (fun a p => Pre p /\ Post a p).
Proof.
  intros Fi H p S P. specialize (H p S I). destruct (m p) as [[a| | |] p']; auto. destruct H as (X & Y & Z & W).
  split; auto. split; auto. split; auto. split; auto. exact (Fi _ _ Y P).
Qed.

Lemma calm_custom U a loc k v (Pre : pst -> Prop) : firm U Pre -> (forall p, Pre p -> isb p a) -> parsed v -> calm U (custom_facet E a loc k v) Pre any_.
Proof.
  intros Fi B P. unfold custom_facet. apply (calm_bind U _ _ _ any_); auto; [apply calm_lift_any; now apply root_quiet|].
  intros x. apply (calm_pre U _ Pre); [tauto|]. apply calm_hp. intros p S Pp. pose proof (B p Pp) as Ba. apply has_base in Ba. destruct Ba as (b & G).
  destruct (has_facets _ _ (k_facets _ _ (base_at _ _ _ S G))) as (m & Gm). pose proof (proj1 (get_facets_nth _ _ _) Gm) as N.
  destruct (put_box U (H_ p) (b_facets b) (CFacets m) (CFacets (oset k x m)) N eq_refl ltac:(discriminate) I ltac:(discriminate) (a_cells _ S)) as [C W].
  eexists tt, _. unfold bind, rd. unfold H_ in G, Gm. rewrite G, Gm. split; [reflexivity|]. split; [exact C|]. split; [exact W|exact I].
Qed.

(** A known shape of the same kind. *)
Lemma calm_reshape U a (sh' : base -> shape) (Pre : pst -> Prop) :
  (forall p, Pre p -> exists b sh, get_base (H_ p) a = Some b /\ b_shape b = Some sh /\ sh <> SUnknown /\ sh' b <> SUnknown
     /\ (shape_ok (H_ p) sh -> shape_ok (H_ p) (sh' b)) /\ (object b -> exists f, sh' b = SObject f)) ->
  calm U (hp (upd_base a (fun b => set_shape (Some (sh' b)) b))) Pre any_.
Proof.
  intros H. apply calm_upd; [|intros; exact I|].
  - intros p b S P G. destruct (H p P) as (b0 & sh & G0 & Sh & N & N' & So & Ob). rewrite G in G0. injection G0 as <-.
    pose proof (base_at _ _ _ S G) as [K1 K2 K3 K4 K5 K6 K7 K8]. split; [|split; [reflexivity|split; [|right; split]]].
    + split; cbn; auto.
      * intros s Q. injection Q as <-. auto.
      * intros s Q _. eauto.
    + intros Q. cbn in Q. congruence.
    + intros _ [Q|Q]; cbn in Q; congruence.
    + intros O. destruct (Ob O) as (f & Q). exists f. cbn. now rewrite Q.
  - intros p P. destruct (H p P) as (b & _ & G & _). eapply get_base_has; eauto.
Qed.

(** The shape of [a] as [facet] reads it. *)
Definition shaped (a : addr) (sh : shape) (p : pst) : Prop := exists b, get_base (H_ p) a = Some b /\ b_shape b = Some sh.

Lemma calm_own_facet U {X} a loc k v (r : res (option X)) mk sh : parsed v -> quietly r -> sh <> SUnknown ->
  (forall f, r = Ok (Some f) -> mk f <> SUnknown /\ (forall h, shape_ok h sh -> shape_ok h (mk f)) /\ forall f0, sh = SObject f0 -> exists f1, mk f = SObject f1) ->
  calm U (own_facet E a loc k v r mk) (shaped a sh) any_.
Proof.
  intros P Q N R p S Sh. unfold own_facet, dbind, dlift. destruct r as [[f|]| | |]; cbn; auto.
  - destruct (R f eq_refl) as (N' & So & Ob). destruct Sh as (b & G & Sb).
    refine (calm_reshape U a (fun _ => mk f) (fun q => q = p) _ p S eq_refl).
    intros q ->. exists b, sh. repeat (split; auto). intros (f0 & Q0). rewrite Sb in Q0. injection Q0 as ->. eauto.
  - destruct Sh as (b & G & Sb). refine (calm_custom U a loc k v (fun q => isb q a) _ _ P p S _); auto; [apply firm_isb|]. eapply get_base_has; eauto.
  - split; auto. split; [apply steps_refl|intros; apply grown_refl].
Qed.

Lemma calm_property loc k v (Pre : pst -> Prop) : firm none Pre -> node_ok loc v -> calm none (property rec loc k v) Pre (fun pr p => Pre p /\ isb p (p_base pr)).
Proof.
  intros Fi N. apply calm_frame; auto. unfold property. destruct (chomp_optional k) as [name opt].
  apply (calm_bind none _ _ _ (fun x p => isb p x)); [apply firm_true|now apply Rec|]. intros x.
  apply (calm_pre none _ (fun p => isb p x)); [tauto|]. apply (calm_bind none _ _ _ any_); [apply firm_isb| |].
  - eapply calm_sub; [| |apply (calm_rd_base none x (fun p => isb p x))]; auto. intros; exact I.
  - intros b. destruct (make_property k name opt (b_required b)) as [nm req|]; [apply calm_ret|apply calm_err]. intros p [Q _]. exact Q.
Qed.

Lemma calm_own_props a get set : (get = o_props /\ set = set_props) \/ (get = o_pprops /\ set = set_pprops) ->
  calm none (own_props a get set) (has_object a) (fun m p => has_object a p /\ has (H_ p) m TProps).
Proof.
  intros GS. unfold own_props. apply calm_hp. intros p S (b & G & (f & Sh)). pose proof (base_at _ _ _ S G) as K.
  pose proof (k_shape _ _ K _ Sh) as [So1 So2]. unfold bind at 1, rd. unfold H_ in G. rewrite G, Sh. destruct (get f) as [m0|] eqn:Gf.
  - exists m0, (p_st p). rewrite with_same. split; [reflexivity|]. split; [exact (a_cells _ S)|]. split; [apply hsteps_refl|].
    split; [exists b; split; auto; exists f; auto|]. destruct GS as [[-> ->]|[-> ->]]; auto.
  - fold (H_ p) in G. destruct (new_box none (H_ p) (CProps []) ltac:(discriminate) ltac:(split; [constructor|intros ? ? []]) (a_cells _ S)) as (C1 & W1 & N1 & B1).
    set (h1 := H_ p ++ [CProps []]) in *. set (m := List.length (H_ p)) in *.
    assert (G1 : get_base h1 a = Some b) by (now apply get_base_old).
    set (b' := set_shape (Some (SObject (set (Some m) f))) b).
    assert (K1 : base_ok h1 b). { apply get_base_nth in G1. exact (c_cells _ C1 _ _ G1). }
    assert (Kb : base_ok h1 b').
    { destruct K1 as [K1 K2 K3 K4 K5 K6 K7 K8]. destruct (K6 _ Sh) as [Z1 Z2]. split; unfold b'; cbn; auto.
      - intros sh Q. injection Q as <-. destruct GS as [[-> ->]|[-> ->]]; cbn; split; auto; intros m' Q; injection Q as <-; exact N1.
      - intros sh Q _. apply (K7 _ Sh). discriminate. }
    destruct (put_base none h1 a b b' G1 Kb eq_refl) as [C2 W2]; auto.
    { intros Q. discriminate Q. }
    { right. split; [intros _ [Q|Q]; discriminate Q|]. intros _. eexists. reflexivity. }
    eexists m, _. unfold alloc, bind, upd_base, rd, ret. cbn [heap fst snd]. fold h1. fold (H_ p). fold h1. unfold bind, rd. cbn [heap]. fold h1. rewrite G1.
    split; [reflexivity|]. cbn [heap]. split; [exact C2|]. split; [eapply hsteps_trans; eauto|]. split.
    + exists b'. split; [|eexists; reflexivity]. cbn. apply get_base_nth. apply get_base_nth in G1. eapply nth_error_upd_eq; eauto.
    + cbn. apply (s_sort _ _ _ W2). exact N1.
Qed.

(** Sequencing when everything is carried along by the postcondition. *)
Lemma calm_seq U {A B} (m : D A) (f : A -> D B) (Pre : pst -> Prop) Q (Post : B -> pst -> Prop) :
  calm U m Pre Q -> (forall a, calm U (f a) (Q a) Post) -> calm U (dbind m f) Pre Post.
Proof.
  intros Hm Hf p S P. unfold dbind. specialize (Hm p S P). destruct (m p) as [[a| | |] p1]; auto.
  destruct Hm as (S1 & W1 & G1 & Q1). pose proof (Hf a p1 S1 Q1) as H.
  destruct (f a p1) as [[b| | |] p2]; auto.
  - destruct H as (S2 & W2 & G2 & P2). split; auto. split; [eapply steps_trans; eauto|]. split; [eapply grown_trans; eauto|auto].
  - destruct H as (S2 & W2 & G2). split; auto. split; [eapply steps_trans; eauto|]. intros X. eapply grown_trans; eauto.
Qed.

Lemma calm_rec v name loc (Pre : pst -> Prop) : node_ok loc v -> calm none (rec v name loc) Pre (fun x p => isb p x).
Proof. intros N. apply (calm_pre none _ (fun _ => True)); [auto|now apply Rec]. Qed.

Lemma calm_one_property a loc k v : node_ok loc v -> calm none (one_property E rec a loc k v) (has_object a) any_.
Proof.
  intros N. unfold one_property. destruct (chomp_optional k) as [name opt]. assert (Fo : firm none (has_object a)) by (apply firm_object; intros []).
  destruct (is_pattern_name name).
  - apply (calm_seq none _ _ _ (fun m p => has_object a p /\ has (H_ p) m TProps)); [apply calm_own_props; auto|]. intros m.
    apply (calm_bind none _ _ _ (fun x p => isb p x)); [apply firm_and; auto; apply firm_has|now apply calm_rec|]. intros x.
    apply (calm_pre none _ (fun p => has (H_ p) m TProps /\ isb p x)); [tauto|].
    assert (Fi : firm none (fun p => has (H_ p) m TProps /\ isb p x)) by (apply firm_and; apply firm_has).
    apply calm_then; auto.
    + eapply calm_sub; [| |apply (calm_rd_base none x (fun p => isb p x))]; auto; [tauto|intros; exact I].
    + intros xb. apply (calm_bind none _ _ _ (fun d _ => match d with DPattern _ _ => True | _ => True end)); auto.
      * apply calm_lift; [|intros d; destruct d; auto]. unfold make_pattern_property. repeat (match goal with |- context [if ?c then _ else _] => destruct c end; try discriminate); destruct (b_required xb) as [[]|]; discriminate.
      * intros [|kk re]; [apply calm_err|]. eapply calm_pre; [|apply calm_props_set]. cbn. tauto.
  - apply (calm_seq none _ _ _ (fun m p => has_object a p /\ has (H_ p) m TProps)); [apply calm_own_props; auto|]. intros m.
    apply (calm_seq none _ _ _ (fun pr p => has (H_ p) m TProps /\ isb p (p_base pr))).
    + eapply calm_pre; [|apply calm_property; [apply firm_has|exact N]]. cbn. tauto.
    + intros pr. apply calm_props_set.
Qed.

Lemma calm_properties a loc l ps : pairs_of l ps -> (forall k w, In (k, w) ps -> node_ok loc w) -> calm none (properties E rec a loc l) (has_object a) any_.
Proof.
  assert (Fo : firm none (has_object a)) by (apply firm_object; intros []).
  induction 1 as [|k v l ps Q IH]; intros N; cbn [properties]; [apply calm_ret; intros; exact I|].
  apply calm_then; auto; [apply calm_one_property; apply (N (y_value k)); cbn; auto|]. intros. apply IH. intros k0 w J. apply (N k0). cbn. auto.
Qed.

Lemma calm_items U a x : calm U (hp (upd_arr a (set_items (Some x)))) (fun p => isb p a /\ isb p x) any_.
Proof.
  apply calm_hp. intros p S [Ba Bx]. apply has_base in Ba. destruct Ba as (b & G).
  unfold upd_arr, bind, rd. pose proof G as G0. unfold H_ in G0. rewrite G0.
  assert (Nop : exists (a0 : unit) s', ret tt (p_st p) = (Ok a0, s') /\ cells (heap s') /\ hsteps U (H_ p) (heap s') /\ any_ a0 (with_st p s')).
  { exists tt, (p_st p). split; [reflexivity|]. split; [exact (a_cells _ S)|]. split; [apply hsteps_refl|exact I]. }
  destruct (b_shape b) as [[]|] eqn:Sh; try exact Nop. clear Nop.
  pose proof (base_at _ _ _ S G) as [K1 K2 K3 K4 K5 K6 K7 K8].
  set (b' := set_shape (Some (SArray (set_items (Some x) f))) b).
  destruct (put_base U (H_ p) a b b' G) as [C W]; auto.
  - split; unfold b'; cbn; auto.
    + intros sh Q. injection Q as <-. cbn. intros i Q. injection Q as <-. exact Bx.
    + intros sh Q _. apply (K7 _ Sh). discriminate.
  - intros Q. discriminate Q.
  - right. split; [intros _ [Q|Q]; discriminate Q|]. intros (f0 & Q). congruence.
  - exact (a_cells _ S).
  - eexists tt, _. split; [reflexivity|]. split; [exact C|]. split; [exact W|exact I].
Qed.

Lemma shaped_isb a sh p : shaped a sh p -> isb p a.
Proof. intros (b & G & _). eapply get_base_has; eauto. Qed.

Lemma calm_facet a loc k v : facet_ok loc k v -> calm none (facet E rec a loc k v) (fun p => isb p a) any_.
Proof.
  intros (P & Ni & Np). unfold facet. apply (calm_seq none _ _ _ (fun b p => get_base (H_ p) a = Some b)).
  { eapply calm_sub; [| |apply (calm_rd_base none a (fun p => isb p a))]; cbn; auto. intros x p [Q _]. exact Q. }
  intros b. assert (Cu : calm none (custom_facet E a loc k v) (fun p => get_base (H_ p) a = Some b) any_).
  { eapply calm_pre; [|apply (calm_custom none a loc k v (fun p => isb p a)); auto; apply firm_isb]. cbn. intros p G. eapply get_base_has; eauto. }
  assert (Nop : calm none (dret tt) (fun p => get_base (H_ p) a = Some b) any_) by (apply calm_ret; intros; exact I).
  assert (Own : forall X (r : res (option X)) mk sh, b_shape b = Some sh -> quietly r -> sh <> SUnknown ->
     (forall f, r = Ok (Some f) -> mk f <> SUnknown /\ (forall h, shape_ok h sh -> shape_ok h (mk f)) /\ forall f0, sh = SObject f0 -> exists f1, mk f = SObject f1) ->
     calm none (own_facet E a loc k v r mk) (fun p => get_base (H_ p) a = Some b) any_).
  { intros X r mk sh S Q N R. eapply calm_pre; [|apply (calm_own_facet none a loc k v r mk sh); auto]. cbn. intros p G. exists b. auto. }
  destruct (b_shape b) as [[]|] eqn:S; try exact Cu; try exact Nop.
  - apply (Own _ _ SInt (SInt f)); auto; [now apply int_quiet|discriminate|]. intros f0 _. split; [discriminate|]. split; [intros; exact I|discriminate].
  - apply (Own _ _ SNum (SNum f)); auto; [now apply num_quiet|discriminate|]. intros f0 _. split; [discriminate|]. split; [intros; exact I|discriminate].
  - apply (Own _ _ SStr (SStr f)); auto; [now apply str_quiet|discriminate|]. intros f0 _. split; [discriminate|]. split; [intros; exact I|discriminate].
  - apply (Own _ _ SFile (SFile f)); auto; [now apply file_quiet|discriminate|]. intros f0 _. split; [discriminate|]. split; [intros; exact I|discriminate].
  - eapply (Own _ _ SBool (SBool _)); auto; [now apply bool_quiet|discriminate|]. intros f0 _. split; [discriminate|]. split; [intros; exact I|discriminate].
  - eapply (Own _ _ SDateTime (SDateTime _)); auto; [now apply time_quiet|discriminate|]. intros f0 _. split; [discriminate|]. split; [intros; exact I|discriminate].
  - destruct (String.eqb k "items") eqn:Ki.
    + apply String.eqb_eq in Ki. apply (calm_pre none _ (fun p => isb p a)); [intros p G; eapply get_base_has; eauto|].
      apply (calm_bind none _ _ _ (fun x p => isb p x)); [apply firm_isb|now apply calm_rec, Ni|]. intros x. apply calm_items.
    + apply (Own _ _ SArray (SArray f)); auto; [apply arr_quiet|discriminate|]. intros f0 Q. split; [discriminate|]. split; [|discriminate].
      intros h. cbn. now rewrite (arr_same _ _ _ _ _ Q).
  - destruct (String.eqb k "properties") eqn:Kp.
    + apply String.eqb_eq in Kp. destruct (Nat.even _) eqn:Ev; cbn [negb]; [|apply calm_err]. destruct (pairs_exist _ Ev) as (ps & Q).
      eapply calm_pre; [|eapply calm_properties; [exact Q|]; intros; eapply Np; eauto]. cbn. intros p G. exists b. split; auto. exists f. auto.
    + apply (Own _ _ SObject (SObject f)); auto; [apply obj_quiet|discriminate|]. intros f0 Q. destruct (obj_same _ _ _ _ _ Q) as [Q1 Q2].
      split; [discriminate|]. split; [|eauto]. cbn. rewrite Q1, Q2. auto.
Qed.

Lemma calm_loop a loc l : (forall k v, In (k, v) l -> facet_ok loc k v) -> calm none (facets E rec a loc l) (fun p => isb p a) any_.
Proof.
  induction l as [|[k v] l IH]; intros H; [apply calm_ret; intros; exact I|]. cbn [facets].
  apply calm_then; [apply firm_isb|apply calm_facet; apply H; now left|]. intros. apply IH. intros; apply H; now right.
Qed.

(** [a] has parents. *)
Definition rich (a : addr) (p : pst) : Prop := exists b l, get_base (H_ p) a = Some b /\ get_slice (H_ p) (b_inherits b) = Some l /\ l <> [].

Lemma calm_concrete a loc t fs : facets_ok loc fs ->
  calm (eq a) (concrete E rec a loc t fs) (fun p => lies loc a p /\ (t = "composite" -> rich a p)) (fun _ p => builtin t = true -> known (H_ p) a).
Proof.
  intros O. unfold concrete. destruct (builtin t) eqn:B.
  - apply (calm_seq _ _ _ _ (fun _ p => exists b, get_base (H_ p) a = Some b /\ b_loc b = loc /\ b_type b = t)).
    { apply calm_upd.
      - intros p b S _ G. pose proof (base_at _ _ _ S G) as [K1 K2 K3 K4 K5 K6 K7 K8]. split; [split; cbn; auto|]. split; [reflexivity|].
        split; [|now left]. intros _ _ T. cbn in T. subst t. discriminate B.
      - intros p b S [(b0 & G0 & L0) _] G. rewrite G in G0. injection G0 as <-. exists (set_type t b). split; [|auto].
        cbn. apply get_base_nth. apply get_base_nth in G. eapply nth_error_upd_eq; eauto.
      - intros p [L _]. eapply lies_isb; eauto. }
    intros _. apply (calm_seq _ _ _ _ (fun sh p => sh <> SUnknown /\ shape_ok (H_ p) sh /\ exists b, get_base (H_ p) a = Some b /\ b_loc b = loc /\ b_type b = t)).
    { apply calm_hp. intros p S (b & G & L & T).
      destruct (empty_cases t (p_st p)) as [[Q _]|[(_ & sh0 & Es & N & So & Nb)|(_ & sl & s' & Al & Es)]]; [congruence| |].
      - exists sh0, (p_st p). rewrite with_same. split; [exact Es|]. split; [exact (a_cells _ S)|]. split; [apply hsteps_refl|]. split; [auto|]. split; [auto|]. exists b. auto.
      - injection Al as <- <-. destruct (new_box (eq a) (H_ p) (CSlice []) ltac:(discriminate) ltac:(intros ? []) (a_cells _ S)) as (C1 & W1 & N1 & B1).
        eexists _, _. split; [exact Es|]. cbn [heap]. split; [exact C1|]. split; [exact W1|]. split; [discriminate|]. split.
        + cbn. exact N1.
        + exists b. split; [|auto]. cbn. now apply get_base_old. }
    intros sh. apply calm_pure. intros N.
    apply (calm_seq _ _ _ _ (fun _ p => known (H_ p) a)).
    { apply calm_upd.
      - intros p b S (So & b0 & G0 & L & T) G. rewrite G in G0. injection G0 as <-. pose proof (base_at _ _ _ S G) as [K1 K2 K3 K4 K5 K6 K7 K8].
        split; [split; cbn; auto|split; [reflexivity|split; [|now left]]].
        + intros s Q. injection Q as <-. exact So.
        + intros s Q _. now rewrite T.
        + intros Q. cbn in Q. congruence.
      - intros p b S _ G. exists (set_shape (Some sh) b). split; [cbn; apply get_base_nth; apply get_base_nth in G; eapply nth_error_upd_eq; eauto|].
        intros [Q|Q]; cbn in Q; congruence.
      - intros p (_ & b & G & _). eapply get_base_has; eauto. }
    intros _. assert (Fs : calm (eq a) (facets E rec a loc (match fs with Some l => l | None => [] end)) (fun p => known (H_ p) a) (fun _ p => true = true -> known (H_ p) a)).
    { apply (calm_weak none); [intros x []|]. intros p S K.
      assert (X : forall k v, In (k, v) match fs with Some l => l | None => [] end -> facet_ok loc k v).
      { intros k v J. destruct fs as [l|]; [|destruct J]. now apply (O l). }
      pose proof (calm_loop a loc _ X p S (known_has _ _ K)) as H. destruct (facets _ _ _ _ _ p) as [[u| | |] p']; auto.
      destruct H as (A1 & A2 & A3 & A4). split; auto. split; auto. split; auto. intros _. refine (firm_known none a _ _ _ A2 K). intros []. }
    destruct sh; try exact Fs. now destruct N.
  - intros p S [(b & G & L) Ri].
    set (b1 := set_shape (Some SUnknown) (set_type t b)).
    destruct (put_base (eq a) (H_ p) a b b1 G) as [C W].
    + pose proof (base_at _ _ _ S G) as [K1 K2 K3 K4 K5 K6 K7 K8]. split; cbn; auto.
      * intros sh Q. injection Q as <-. exact I.
      * congruence.
    + reflexivity.
    + intros _ _ T. cbn in T. destruct (Ri T) as (b0 & l & G0 & Gl & N). rewrite G in G0. injection G0 as <-. exists l. auto.
    + now left.
    + exact (a_cells _ S).
    + set (s3 := St (upd a (CBase b1) (heap (p_st p))) (st_shapes (p_st p)) (st_nextid (p_st p))).
      assert (G3 : get_base (heap s3) a = Some b1). { cbn. apply get_base_nth in G. apply get_base_nth. eapply nth_error_upd_eq; eauto. }
      pose proof (sane_st (eq a) p s3 S C W) as S3. pose proof (steps_st (eq a) p s3 W) as W3.
      assert (Run : concrete E rec a loc t fs p = put_facets a fs (with_st p s3)).
      { unfold concrete. unfold dbind at 1. unfold hp at 1. unfold upd_base at 1, bind, rd. unfold H_ in G. rewrite G. cbn.
        unfold dbind, hp. set (s1 := St _ _ _). destruct (empty_cases t s1) as [[_ Q]|[[Q _]|[Q _]]]; try congruence. cbn [p_st]. rewrite Q.
        unfold upd_base, bind, rd. cbn [p_st]. unfold s1 at 1. cbn [heap]. assert (G1 : get_base (upd a (CBase (set_type t b)) (heap (p_st p))) a = Some (set_type t b)).
        { apply get_base_nth. apply get_base_nth in G. eapply nth_error_upd_eq; eauto. }
        rewrite G1. unfold Heap.write. cbn. rewrite upd_upd. reflexivity. }
      unfold concrete in Run. rewrite Run. pose proof (calm_facets (eq a) a fs loc O (with_st p s3) S3) as H.
      assert (Li : lies loc a (with_st p s3)) by (exists b1; split; auto). specialize (H Li). unfold put_facets in *.
      destruct H as (A1 & A2 & A3 & _). split; auto. split; [eapply steps_trans; eauto|]. split; [now apply grown_same|discriminate].
Qed.

Lemma calm_facet_defs m loc l ps : pairs_of l ps -> (forall k w, In (k, w) ps -> node_ok loc w) ->
  calm none (facet_defs rec m loc l) (fun p => has (H_ p) m TProps) any_.
Proof.
  induction 1 as [|k v l ps Q IH]; intros N; cbn [facet_defs]; [apply calm_ret; intros; exact I|].
  apply (calm_seq none _ _ _ (fun pr p => has (H_ p) m TProps /\ isb p (p_base pr))).
  { apply calm_property; [apply firm_has|]. apply (N (y_value k)). cbn. auto. }
  intros pr. apply (calm_pre none _ (fun p => has (H_ p) m TProps /\ has (H_ p) m TProps /\ isb p (p_base pr))); [tauto|].
  apply (calm_bind none _ _ _ any_).
  - apply firm_and; [apply firm_has|]. apply firm_and; [apply firm_has|apply firm_isb].
  - eapply calm_pre; [|apply calm_props_set]. cbn. tauto.
  - intros u. apply (calm_pre none _ (fun p => has (H_ p) m TProps)); [tauto|]. apply IH. intros k0 w J. apply (N k0). cbn. auto.
Qed.

(** An entry of a type declaration. *)
Definition entry_ok (loc k : string) (v : ynode) : Prop :=
  parsed v /\ (In k ["type"; "items"] -> node_ok loc v)
  /\ (In k ["properties"; "facets"] -> forall qs k' w, pairs_of (y_content v) qs -> In (k', w) qs -> node_ok loc w)
  /\ (k = "facets" -> Nat.even (List.length (y_content v)) = true)
  /\ (k = "examples" -> y_kind v = KScalar -> y_tag v = "!include" -> role (e_join (d_y E) loc (y_value v)) = KNamedExample).

Lemma calm_decode_example a loc v : parsed v -> calm none (decode_example E a loc v) (fun p => isb p a) any_.
Proof.
  intros P. unfold decode_example. apply calm_then; [apply firm_isb|eapply calm_sub; [| |apply (calm_rd_base none a (fun p => isb p a))]; auto; intros; exact I|].
  intros b. destruct (b_examples b); [apply calm_err|]. apply calm_then; [apply firm_isb|apply calm_example; auto; apply firm_isb|].
  intros x. apply calm_soft; auto. apply soft_example.
Qed.

Lemma calm_decode_examples a loc v : parsed v -> (y_kind v = KScalar -> y_tag v = "!include" -> role (e_join (d_y E) loc (y_value v)) = KNamedExample) ->
  calm none (decode_examples E inc_ne a loc v) (fun p => isb p a) any_.
Proof.
  intros P R. unfold decode_examples. apply calm_then; [apply firm_isb|eapply calm_sub; [| |apply (calm_rd_base none a (fun p => isb p a))]; auto; intros; exact I|].
  intros b. destruct (b_example b); [apply calm_err|]. destruct v as [k t s c]; cbn [y_kind y_content y_tag y_value] in *. destruct k; try apply calm_err.
  - destruct (parsed_map _ _ _ P) as (ps & Q). apply calm_then; [apply firm_isb| |].
    + eapply calm_example_map; eauto; [apply firm_isb|]. intros x. now apply (parsed_in (Y KMap t s c)).
    + intros x. apply calm_soft; auto. apply soft_examples.
  - destruct (String.eqb t "!include") eqn:T; [|apply calm_err]. apply String.eqb_eq in T. apply calm_then; [apply firm_isb| |].
    + apply (calm_pre none _ (fun _ => True)); [auto|]. apply Ine. now apply R.
    + intros x. apply calm_soft; auto. apply soft_examples.
Qed.

Lemma calm_entry a loc k v : entry_ok loc k v -> calm none (entry E inc_ne rec a loc k v) (fun p => isb p a) any_.
Proof.
  intros (P & _ & Nm & Ev & Ne). unfold entry.
  destruct (String.eqb k "displayName"); [apply calm_then; [apply firm_isb|apply calm_lift_any, quietly_or|intros; apply calm_soft; auto; apply soft_disp]|].
  destruct (String.eqb k "description"); [apply calm_then; [apply firm_isb|apply calm_lift_any, quietly_or|intros; apply calm_soft; auto; apply soft_desc]|].
  destruct (String.eqb k "required"); [apply calm_then; [apply firm_isb|apply calm_lift_any, quietly_or|intros; apply calm_soft; auto; apply soft_required]|].
  destruct (String.eqb k "facets") eqn:Kf.
  { apply String.eqb_eq in Kf. destruct (pairs_exist _ (Ev Kf)) as (ps & Q).
    apply (calm_seq none _ _ _ (fun m p => isb p a /\ has (H_ p) m TProps)).
    { apply calm_hp. intros p S Ba. destruct (new_box none (H_ p) (CProps []) ltac:(discriminate) ltac:(split; [constructor|intros ? ? []]) (a_cells _ S)) as (C1 & W1 & N1 & B1).
      eexists _, _. split; [reflexivity|]. cbn [heap]. split; [exact C1|]. split; [exact W1|]. split; [apply (s_sort _ _ _ W1); exact Ba|exact N1]. }
    intros m. apply (calm_seq none _ _ _ (fun _ p => has (H_ p) m TProps)).
    { apply calm_upd.
      - intros p b S [Ba Hm] G. pose proof (base_at _ _ _ S G) as [K1 K2 K3 K4 K5 K6 K7 K8]. split; [split; cbn; auto|]. split; [reflexivity|].
        split; [exact (c_rooted _ (a_cells _ S) _ _ G)|right; auto].
      - intros p b S [Ba Hm] G. cbn. apply get_base_nth in G. apply (has_upd _ _ _ (CBase (set_fdefs m b)) _ _ G); auto.
      - tauto. }
    intros u. eapply calm_facet_defs; [exact Q|]. intros k0 w J. eapply Nm; eauto. subst k. cbn. auto. }
  destruct (String.eqb k "example"); [now apply calm_decode_example|].
  destruct (String.eqb k "examples") eqn:Ke; [apply String.eqb_eq in Ke; apply calm_decode_examples; auto|].
  destruct (String.eqb k "default"); [apply calm_then; [apply firm_isb|now apply calm_lift_any, root_quiet|intros; apply calm_soft; auto; apply soft_default]|].
  destruct (String.eqb k "allowedTargets"); [apply calm_ret; intros; exact I|].
  apply calm_then; [apply firm_isb|apply calm_make_ext; auto; apply firm_isb|]. intros x.
  apply calm_then; [apply firm_isb|eapply calm_sub; [| |apply (calm_rd_base none a (fun p => isb p a))]; auto; intros; exact I|].
  intros b. apply calm_soft; auto. apply soft_domain.
Qed.

Definition opened (loc : string) (r : option ynode * fnodes) : Prop := (forall t, fst r = Some t -> node_ok loc t) /\ facets_ok loc (Some (snd r)).

Lemma entry_facet loc k v : entry_ok loc k v -> facet_ok loc k v.
Proof.
  intros (P & A & B & _). split; auto. split; [intros ->; apply A; cbn; auto|]. intros ->. apply B. cbn. auto.
Qed.

Lemma calm_decode_entries a loc l ps : pairs_of l ps -> (forall k v, In (k, v) ps -> entry_ok loc k v) ->
  forall t fs, opened loc (t, fs) -> calm none (decode_entries E inc_ne rec a loc l t fs) (fun p => isb p a) (fun r _ => opened loc r).
Proof.
  induction 1 as [|k v l ps Q IH]; intros N t fs O; cbn [decode_entries]; [apply calm_ret; auto|].
  assert (N' : forall k v, In (k, v) ps -> entry_ok loc k v) by (intros; apply N; cbn; auto).
  assert (Nk : entry_ok loc (y_value k) v) by (apply N; cbn; auto).
  destruct (String.eqb (y_value k) "type") eqn:Kt.
  - apply IH; auto. destruct O as [O1 O2]. split; auto. cbn. intros t0 W. injection W as <-. apply String.eqb_eq in Kt. apply Nk. rewrite Kt. cbn. auto.
  - destruct (known_key (y_value k)).
    + apply calm_then; [apply firm_isb|now apply calm_entry|]. intros. now apply IH.
    + apply IH; auto. destruct O as [O1 O2]. split; auto. cbn. intros l0 k0 v0 W J. injection W as <-. apply in_app_or in J.
      destruct J as [J|[J|[]]]; [eapply O2; eauto; reflexivity|]. injection J as <- <-. now apply entry_facet.
Qed.

Lemma node_entries loc t s c ps k v : node_ok loc (Y KMap t s c) -> pairs_of c ps -> In (k, v) ps -> entry_ok loc k v.
Proof.
  intros N Q J. pose proof (node_plain _ _ N) as Pl. split; [eapply parsed_pair; [apply N|exact Q|exact J]|]. split; [|split; [|split]].
  - intros K. eapply node_below; eauto.
  - intros K qs k' w Q' J'. eapply node_member; eauto.
  - intros ->. apply (pn_facets _ _ _ _ Pl ps); auto.
  - intros -> K T. apply (pn_examples _ _ _ _ Pl ps v); auto.
Qed.

Lemma calm_decode a loc v : node_ok loc v ->
  calm none (decode E inc_ne rec a loc v) (fun p => isb p a) (fun r _ => (forall t, fst r = Some t -> node_ok loc t) /\ facets_ok loc (snd r)).
Proof.
  intros N. unfold decode. destruct v as [k t s c]; cbn [y_kind y_content]. destruct k; try apply calm_err.
  - apply calm_ret. intros p _. cbn. split; [intros t0 W; injection W as <-; exact N|discriminate].
  - destruct (parsed_map _ _ _ (proj1 N)) as (ps & Q). apply (calm_seq none _ _ _ (fun r _ => opened loc r)).
    + eapply calm_decode_entries; [exact Q| |].
      * intros. eapply node_entries; eauto.
      * split; [discriminate|]. intros l k v W. injection W as <-. intros [].
    + intros r. apply calm_ret. intros p [A B]. auto.
  - apply calm_ret. intros p _. cbn. split; [intros t0 W; injection W as <-; exact N|discriminate].
Qed.

Lemma firm_all_isb U l : firm U (fun p => forall y, In y l -> isb p y).
Proof. intros p p' W H y J. refine (firm_isb U y _ _ W _). auto. Qed.

Lemma calm_parents name loc l : (forall w, In w l -> node_ok loc w) ->
  calm none (parents rec name loc l) (fun _ => True) (fun xs p => (l <> [] -> xs <> []) /\ forall y, In y xs -> isb p y).
Proof.
  induction l as [|v l IH]; intros N; cbn [parents]; [apply calm_ret; intros p _; split; auto; intros y []|].
  destruct (y_kind v); try apply calm_err. destruct (String.eqb _ _); [apply calm_err|].
  apply (calm_bind none _ _ _ (fun x p => isb p x)); [apply firm_true|apply calm_rec, N; now left|]. intros x.
  apply (calm_pre none _ (fun p => isb p x)); [tauto|].
  apply (calm_bind none _ _ _ (fun xs p => forall y, In y xs -> isb p y)); [apply firm_isb| |].
  - eapply calm_sub; [| |apply IH]; cbn; auto; [tauto|]. intros; apply N; now right.
  - intros xs. apply calm_ret. intros p [A B]. split; [discriminate|]. intros y [<-|J]; auto.
Qed.

Lemma calm_shape_type a name loc t fs : node_ok loc t ->
  calm (eq a) (shape_type E inc_dt rec a name loc t fs) (fun p => isb p a) (fun r p => r = Some "composite" -> rich a p).
Proof.
  intros N. pose proof (node_plain _ _ N) as Pl. unfold shape_type. destruct t as [k tg s c]; cbn [y_kind y_content y_tag y_value]. destruct k; try apply calm_err.
  - apply (calm_bind _ _ _ _ (fun xs p => xs <> [] /\ forall y, In y xs -> isb p y)); [apply firm_isb| |].
    { eapply calm_sub; [| |eapply (calm_weak none); [intros x []|]; apply (calm_parents name loc c)]; cbn; auto.
      - intros xs p [A B]. split; auto. apply A. exact (pn_list _ _ _ _ Pl eq_refl).
      - intros w J. eapply node_parent; eauto. }
    intros xs. apply (calm_pre _ _ (fun p => xs <> [] /\ isb p a /\ forall y, In y xs -> isb p y)); [tauto|]. apply calm_pure. intros Nx.
    apply (calm_seq _ _ _ _ (fun sl p => isb p a /\ get_slice (H_ p) sl = Some xs)).
    { apply calm_hp. intros p S [Ba Bx]. destruct (new_box (eq a) (H_ p) (CSlice xs) ltac:(discriminate) Bx (a_cells _ S)) as (C1 & W1 & N1 & B1).
      eexists _, _. split; [reflexivity|]. cbn [heap]. split; [exact C1|]. split; [exact W1|]. split; [apply (s_sort _ _ _ W1); exact Ba|].
      cbn. apply get_slice_nth. apply nth_error_snoc. }
    intros sl. apply (calm_seq _ _ _ _ (fun _ p => rich a p)); [|intros u; apply calm_ret; auto].
    apply calm_upd.
    + intros p b S [Ba Gs] G. pose proof (base_at _ _ _ S G) as [K1 K2 K3 K4 K5 K6 K7 K8]. split; [split; cbn; auto|].
      * apply get_slice_nth in Gs. exists (CSlice xs). auto.
      * split; [reflexivity|]. split; [|now left]. intros _ _ _. exists xs. auto.
    + intros p b S [Ba Gs] G. exists (set_inherits sl b), xs. cbn. split; [apply get_base_nth; apply get_base_nth in G; eapply nth_error_upd_eq; eauto|]. split; auto.
      apply get_slice_nth. apply get_slice_nth in Gs. apply get_base_nth in G. rewrite nth_error_upd_neq; auto. intros ->. unfold H_ in *. congruence.
    + tauto.
  - destruct (String.eqb tg "!!str").
    { destruct s as [|ch w].
      - apply (calm_bind _ _ _ _ (fun ty _ => ty <> "composite")); [apply firm_isb| |].
        + apply calm_lift; [apply identify_ok|]. intros ty p Q _. eapply identify_ok; eauto.
        + intros ty. apply calm_ret. intros p [_ Q] W. now injection W as ->.
      - destruct (Ascii.eqb ch "{"%char); [|apply calm_ret; intros p _ Q; injection Q as Q; destruct (pn_name _ _ _ _ Pl eq_refl); cbn; congruence].
        apply (calm_seq _ _ _ _ (fun _ p => exists b, get_base (H_ p) a = Some b /\ b_type b = "json")).
        { apply calm_upd; auto.
          - intros p b S _ G. pose proof (base_at _ _ _ S G) as [K1 K2 K3 K4 K5 K6 K7 K8]. split; [split; cbn; auto|]. split; [reflexivity|].
            split; [|now left]. intros _ _ T. discriminate T.
          - intros p b S _ G. exists (set_type "json" b). split; auto. cbn. apply get_base_nth. apply get_base_nth in G. eapply nth_error_upd_eq; eauto. }
        intros _. destruct (d_schema _ _); [|apply calm_err]. apply (calm_seq _ _ _ _ any_); [|intros; apply calm_ret; discriminate].
        apply calm_upd; [|intros; exact I|].
        + intros p b S (b0 & G0 & T) G. rewrite G in G0. injection G0 as <-. pose proof (base_at _ _ _ S G) as [K1 K2 K3 K4 K5 K6 K7 K8].
          split; [split; cbn; auto|split; [reflexivity|split; [|now left]]].
          * intros sh Q. injection Q as <-. exact I.
          * intros sh Q _. now rewrite T.
          * intros Q. discriminate Q.
        + intros p (b & G & _). eapply get_base_has; eauto. }
    destruct (String.eqb tg "!include") eqn:Ti.
    { apply String.eqb_eq in Ti. apply (calm_bind _ _ _ _ (fun d p => has (H_ p) d TDT)); [apply firm_isb| |].
      - eapply calm_pre; [|eapply (calm_weak none); [intros x []|]; apply Idt; apply (pn_include _ _ _ _ Pl); auto]. cbn. auto.
      - intros d. apply (calm_seq _ _ _ _ any_); [|intros; apply calm_ret; discriminate]. apply calm_upd; [|intros; exact I|tauto].
        intros p b S [Ba Hd] G. pose proof (base_at _ _ _ S G) as [K1 K2 K3 K4 K5 K6 K7 K8]. split; [split; cbn; auto|].
        + intros d0 Q. injection Q as <-. exact Hd.
        + split; [reflexivity|]. split; [|now left]. intros _ Q. discriminate Q. }
    destruct (String.eqb tg "!!null"); [apply calm_ret; discriminate|apply calm_err].
Qed.

(** Nothing was at the new place. *)
Lemma steps_new a p p1 p2 : List.length (H_ p) <= a -> steps none p p1 -> steps (eq a) p1 p2 -> steps none p p2.
Proof.
  intros L [[A B C] D] [[A' B' C'] D']. split; [split; auto|lia].
  - intros x b G. destruct (B _ _ G) as (b1 & G1 & L1 & K1). destruct (B' _ _ G1) as (b2 & G2 & L2 & K2). exists b2. split; auto. split; [congruence|].
    intros N. destruct (K1 N) as [X1 X2]. assert (Nx : a <> x). { intros <-. apply get_base_nth in G. apply nth_error_lt in G. lia. } destruct (K2 Nx). auto.
  - intros x l G N. destruct (C _ _ G N) as (l1 & G1 & N1). eauto.
Qed.

Lemma calm_new_shape v name loc : node_ok loc v -> calm none (new_shape E inc_dt inc_ne rec v name loc) (fun _ => True) (fun x p => isb p x).
Proof.
  intros N p S _. unfold new_shape. unfold dbind at 1. unfold hp at 1.
  destruct (new_base_ok name loc (p_st p) (a_cells _ S)) as (a & s1 & b & Mk & C1 & W1 & G1 & L1 & Sh & La). rewrite Mk. fold (with_st p s1).
  pose proof (sane_st none p s1 S C1 W1) as S1. pose proof (steps_st none p s1 W1) as St1.
  assert (Li : lies loc a (with_st p s1)) by (exists b; auto).
  set (m := dbind _ _).
  assert (K : calm (eq a) m (lies loc a) (fun x p => isb p x)).
  { unfold m. apply (calm_bind _ _ _ _ (fun r _ => (forall t, fst r = Some t -> node_ok loc t) /\ facets_ok loc (snd r))); [apply firm_lies| |].
    - eapply calm_pre; [|eapply (calm_weak none); [intros x []|]; apply (calm_decode a loc v N)]. intros q. apply lies_isb.
    - intros tf. apply (calm_pre _ _ (fun q => ((forall t, fst tf = Some t -> node_ok loc t) /\ facets_ok loc (snd tf)) /\ lies loc a q)); [tauto|].
      apply calm_pure. intros [Nt Of].
      apply (calm_bind _ _ _ _ (fun r q => r = Some "composite" -> rich a q)); [apply firm_lies| |].
      + destruct (fst tf) as [t|].
        * eapply calm_pre; [|apply calm_shape_type; auto]. intros q. apply lies_isb.
        * apply (calm_bind _ _ _ _ (fun ty _ => ty <> "composite")); [apply firm_lies| |].
          -- apply calm_lift; [apply identify_ok|]. intros ty q Q _. eapply identify_ok; eauto.
          -- intros ty. apply calm_ret. intros q [_ Q] W. now injection W as ->.
      + intros [ty|]; [|apply calm_ret; intros q [Lq _]; eapply lies_isb; eauto].
        assert (Fin : calm (eq a) (dbind (hp (rd get_base a)) (fun b0 => match b_shape b0 with Some SUnknown => dbind (put_todo a) (fun _ => dret a) | _ => dret a end)) (fun q => isb q a) (fun x q => isb q x)).
        { apply calm_then; [apply firm_isb|eapply calm_sub; [| |apply (calm_rd_base _ a (fun p => isb p a))]; auto; intros; exact I|].
          intros b0. assert (R : calm (eq a) (dret a) (fun q => isb q a) (fun x q => isb q x)) by (apply calm_ret; auto).
          destruct (b_shape b0) as [[]|]; try exact R. apply calm_then; [apply firm_isb|now apply calm_todo|intros; exact R]. }
        intros q Sq [Lq Rq].
        assert (X : calm (eq a) (concrete E rec a loc ty (snd tf)) (fun q => lies loc a q /\ (ty = "composite" -> rich a q)) (fun _ q => isb q a)).
        { intros q0 S0 P0. pose proof (calm_concrete a loc ty (snd tf) Of q0 S0 P0) as H. destruct (concrete _ _ _ _ _ _ q0) as [[u| | |] q1]; auto.
          destruct H as (A1 & A2 & A3 & _). split; auto. split; auto. split; auto. refine (firm_isb (eq a) a _ _ A2 _). eapply lies_isb. apply P0. }
        refine (calm_seq _ _ _ _ _ _ X (fun _ => Fin) q Sq _). split; auto. intros ->. apply Rq. reflexivity. }
  specialize (K (with_st p s1) S1 Li). destruct (m (with_st p s1)) as [[x| | |] p2]; auto.
  - destruct K as (A1 & A2 & A3 & A4). split; auto. split; [eapply steps_new; eauto|]. split; [|auto]. eapply grown_trans; [|exact A3]. now apply grown_same.
  - destruct K as (A1 & A2 & A3). split; auto. split; [eapply steps_new; eauto|]. intros X. eapply grown_trans; [|exact (A3 X)]. now apply grown_same.
Qed.
End Rec.

Lemma calm_shape_at n v name loc : node_ok loc v -> calm none (shape_at E inc_dt inc_ne n v name loc) (fun _ => True) (fun x p => isb p x).
Proof.
  revert v name loc. induction n as [|n IH]; intros v name loc N; cbn [shape_at]; [intros p S _; exact I|].
  apply calm_new_shape; auto.
Qed.

Lemma calm_shape_yaml v name loc : node_ok loc v -> calm none (shape_yaml E inc_dt inc_ne v name loc) (fun _ => True) (fun x p => isb p x).
Proof. apply calm_shape_at. Qed.

(** What resolution does with the facets of a type. *)
Lemma calm_concrete_yaml a t fs :
  calm (eq a) (concrete_yaml E inc_dt inc_ne a t fs)
    (fun p => (exists b, get_base (H_ p) a = Some b /\ facets_ok (b_loc b) fs) /\ (t = "composite" -> rich a p)) (fun _ p => builtin t = true -> known (H_ p) a).
Proof.
  intros p S [(b & G & O) R]. unfold concrete_yaml, dbind, hp at 1, rd. unfold H_ in G. rewrite G. fold (with_st p (p_st p)). rewrite with_same.
  apply (calm_concrete (fun v => shape_yaml E inc_dt inc_ne v) (fun v name loc => calm_shape_yaml v name loc) a (b_loc b) t fs O p S).
  split; auto. exists b. auto.
Qed.
End Shape.

(** * Fragments *)

Lemma in_names {A} n (m : omap A) x : oget n m = Some x -> In n (map fst m).
Proof. intros O. apply Pipeline_proofs.oget_In in O. apply (in_map fst) in O. exact O. Qed.

Lemma oget_unlinked n m : oget n (unlinked m) = Some None -> In n (map fst m).
Proof. intros O. apply in_names in O. unfold unlinked in O. rewrite map_map in O. exact O. Qed.

(** The paths in a map of [uses]. *)
Definition uses_ok (loc : string) (m : omap string) : Prop := forall n v, In (n, v) m -> role (e_join (d_y E) loc v) = KLibrary.

Lemma uses_quiet loc l ps : pairs_of l ps -> (forall n w, In (n, w) ps -> role (e_join (d_y E) loc (y_value w)) = KLibrary) ->
  forall m, uses_ok loc m -> exists m', uses_map l m = Ok m' /\ uses_ok loc m'.
Proof.
  induction 1 as [|k v l ps Q IH]; intros R m O; cbn [uses_map]; [eauto|]. apply IH.
  - intros n w J. apply (R n). cbn. auto.
  - intros n w J. apply Parse_fresh.in_oset in J. destruct J as [->|J]; [|eauto]. apply (R (y_value k)). cbn. auto.
Qed.

(** All libraries are set except for the one at [l]. *)
Record grown_at (l : nat) (p p' : pst) : Prop := {
  w_libs : forall i lib, i <> l -> nth_error (p_libs p) i = Some lib -> nth_error (p_libs p') i = Some lib;
  w_lib : forall i lib, List.length (p_libs p) <= i -> nth_error (p_libs p') i = Some lib -> linked (l_uses lib);
  w_old : forall path f, oget path (p_frags p) = Some f -> oget path (p_frags p') = Some f;
  w_new : forall path u o, oget path (p_frags p) = None -> oget path (p_frags p') = Some (FDT u o) -> linked u
}.

Lemma grown_at_trans l p1 p2 p3 : l < List.length (p_libs p1) -> grown_at l p1 p2 -> grown_at l p2 p3 -> grown_at l p1 p3.
Proof.
  intros L [A B C D] [A' B' C' D']. split; auto.
  - intros i lib Li N. destruct (nth_error (p_libs p2) i) as [lib2|] eqn:N2.
    + assert (X : i <> l) by lia. pose proof (A' _ _ X N2) as Y. rewrite N in Y. injection Y as ->. eauto.
    + apply nth_error_None in N2. eauto.
  - intros path u o N O. destruct (oget path (p_frags p2)) as [f|] eqn:O2; [|eauto].
    pose proof (C' _ _ O2) as X. rewrite O in X. injection X as <-. eauto.
Qed.

Lemma grown_is_at l p p' : grown p p' -> grown_at l p p'.
Proof. intros [A B C D]. split; auto. Qed.

(** The same for the data type at [q]. *)
Record grown_but (q : string) (p p' : pst) : Prop := {
  x_libs : forall i lib, nth_error (p_libs p) i = Some lib -> nth_error (p_libs p') i = Some lib;
  x_lib : forall i lib, List.length (p_libs p) <= i -> nth_error (p_libs p') i = Some lib -> linked (l_uses lib);
  x_old : forall path f, path <> q -> oget path (p_frags p) = Some f -> oget path (p_frags p') = Some f;
  x_new : forall path u o, path <> q -> oget path (p_frags p) = None -> oget path (p_frags p') = Some (FDT u o) -> linked u
}.

Lemma grown_but_trans q p1 p2 p3 : grown_but q p1 p2 -> grown_but q p2 p3 -> grown_but q p1 p3.
Proof.
  intros [A B C D] [A' B' C' D']. split; auto.
  - intros i lib L N. destruct (nth_error (p_libs p2) i) as [lib2|] eqn:N2.
    + pose proof (A' _ _ N2) as X. rewrite N in X. injection X as ->. eauto.
    + apply nth_error_None in N2. eauto.
  - intros path u o Nq N O. destruct (oget path (p_frags p2)) as [f|] eqn:O2; [|eauto].
    pose proof (C' _ _ Nq O2) as X. rewrite O in X. injection X as <-. eauto.
Qed.

Lemma grown_is_but q p p' : grown p p' -> grown_but q p p'.
Proof. intros [A B C D]. split; eauto. Qed.

Definition all_in (p : pst) (m : omap addr) : Prop := forall k a, In (k, a) m -> isb p a.
Lemma firm_all_in U m : firm U (fun p => all_in p m).
Proof. intros p p' W H k a J. refine (firm_isb U a _ _ W _). eauto. Qed.
Lemma all_in_oset p m k a : all_in p m -> isb p a -> all_in p (oset k a m).
Proof. intros H B k' a' J. apply Parse_fresh.in_oset in J. destruct J as [->|J]; eauto. Qed.

Definition lib_index (l : nat) (p : pst) : Prop := l < List.length (p_libs p).
Lemma firm_index U l : firm U (lib_index l).
Proof. intros p p' [_ L] H. unfold lib_index in *. lia. Qed.

Section Fragment.
Variable inc_dt : string -> D addr.
Variable inc_ne : string -> D unit.
Variable inc_lib : string -> D nat.
Hypothesis Idt : forall x, role x = KDataType -> calm none (inc_dt x) (fun _ => True) (fun d p => has (H_ p) d TDT).
Hypothesis Ine : forall x, role x = KNamedExample -> calm none (inc_ne x) (fun _ => True) any_.
Hypothesis Ilib : ~ sealed -> forall x, role x = KLibrary -> calm none (inc_lib x) (fun _ => True) lib_index.

Lemma calm_declarations loc put l ps : (forall k loc a (Pre : pst -> Prop), calm none (put k loc a) Pre any_) ->
  pairs_of l ps -> (forall k w, In (k, w) ps -> node_ok loc w) ->
  forall m, calm none (declarations E inc_dt inc_ne loc put l m) (fun p => all_in p m) (fun m' p => all_in p m').
Proof.
  intros Pu. induction 1 as [|k v l ps Q IH]; intros N m; cbn [declarations]; [apply calm_ret; auto|].
  apply (calm_bind none _ _ _ (fun x p => isb p x)); [apply firm_all_in| |].
  - apply (calm_pre none _ (fun _ => True)); [auto|]. apply calm_shape_yaml; auto. apply (N (y_value k)). cbn. auto.
  - intros x. apply (calm_bind none _ _ _ any_); [apply firm_and; [apply firm_all_in|apply firm_isb]|apply Pu|]. intros u.
    apply (calm_pre none _ (fun p => all_in p (oset (y_value k) x m))); [intros p [[A B] _]; now apply all_in_oset|].
    apply IH. intros k0 w J. apply (N k0). cbn. auto.
Qed.

Lemma calm_declare loc put v old : (forall k loc a (Pre : pst -> Prop), calm none (put k loc a) Pre any_) ->
  parsed v -> (forall ts k w, pairs_of (y_content v) ts -> In (k, w) ts -> node_ok loc w) ->
  calm none (declare E inc_dt inc_ne loc put v old) (fun p => all_in p old) (fun m' p => all_in p m').
Proof.
  intros Pu P N. unfold declare. destruct (String.eqb _ _); [apply calm_ret; auto|]. destruct v as [k t s c]; cbn [y_kind y_content] in *.
  destruct k; try apply calm_err. destruct (parsed_map _ _ _ P) as (ps & Q).
  apply (calm_pre none _ (fun p => all_in p [])); [intros p _ k a []|]. eapply calm_declarations; eauto.
Qed.

Definition plib_ok (loc : string) (b : plib) (p : pst) : Prop := uses_ok loc (pl_uses b) /\ all_in p (pl_types b) /\ all_in p (pl_annots b).
Lemma firm_plib U loc b : firm U (plib_ok loc b).
Proof. apply firm_and; [apply firm_const|]. apply firm_and; apply firm_all_in. Qed.

Lemma calm_lib_entries loc l ps : pairs_of l ps -> (forall x, In x l -> parsed x) ->
  (forall s u ts k w, In (s, u) ps -> In s ["types"; "annotationTypes"] -> pairs_of (y_content u) ts -> In (k, w) ts -> tidy_type E role loc w) ->
  (forall u, In ("uses", u) ps -> libraries E role loc u) ->
  forall b, calm none (lib_entries E inc_dt inc_ne loc l b) (plib_ok loc b) (plib_ok loc).
Proof.
  induction 1 as [|k v l ps Q IH]; intros P T Us b; cbn [lib_entries]; [apply calm_ret; auto|].
  assert (Go : forall b, calm none (lib_entries E inc_dt inc_ne loc l b) (plib_ok loc b) (plib_ok loc)).
  { apply IH.
    - intros x J. apply P. cbn. auto.
    - intros s u ts k0 w J. apply (T s u ts k0 w). cbn. auto.
    - intros u J. apply Us. cbn. auto. }
  clear IH. assert (Pv : parsed v) by (apply P; cbn; auto).
  assert (Nw : In (y_value k) ["types"; "annotationTypes"] -> forall ts k0 w, pairs_of (y_content v) ts -> In (k0, w) ts -> node_ok loc w).
  { intros Jk ts k0 w Qt J. split; [eapply parsed_pair; eauto|]. apply (T (y_value k) v ts k0 w); auto. cbn. auto. }
  destruct (String.eqb (y_value k) "uses") eqn:Ku.
  { apply String.eqb_eq in Ku. apply (calm_bind none _ _ _ (fun m _ => uses_ok loc m)); [apply firm_plib| |].
    - intros p S (U0 & _). assert (X : (exists m, lib_uses v (pl_uses b) = Ok m /\ uses_ok loc m) \/ lib_uses v (pl_uses b) = Err).
      { unfold lib_uses. destruct (String.eqb _ _); [eauto|]. destruct v as [kd t s c]; cbn [y_kind y_content] in *. destruct kd; auto.
        destruct (parsed_map _ _ _ Pv) as (us & Qu). left. eapply uses_quiet; [exact Qu| |intros ? ? []].
        intros n w J. eapply (Us (Y KMap t s c)); eauto. rewrite <- Ku. cbn. auto. }
      unfold dlift. destruct X as [(m & -> & O)| ->]; cbn.
      + split; auto. split; [apply steps_refl|]. split; [apply grown_refl|auto].
      + split; auto. split; [apply steps_refl|intros; apply grown_refl].
    - intros m. eapply calm_pre; [|apply Go]. intros p [(_ & A & B) O]. split; auto. }
  destruct (String.eqb (y_value k) "types") eqn:Kt.
  { apply String.eqb_eq in Kt. apply (calm_bind none _ _ _ (fun m p => all_in p m)); [apply firm_plib| |].
    - eapply calm_pre; [|apply calm_declare; auto; [intros; apply calm_put_type|apply Nw; rewrite Kt; cbn; auto]]. intros p (_ & A & _). exact A.
    - intros m. eapply calm_pre; [|apply Go]. intros p [(U0 & A & B) O]. split; auto. }
  destruct (String.eqb (y_value k) "annotationTypes") eqn:Ka.
  { apply String.eqb_eq in Ka. apply (calm_bind none _ _ _ (fun m p => all_in p m)); [apply firm_plib| |].
    - eapply calm_pre; [|apply calm_declare; auto; [intros; apply calm_put_annot|apply Nw; rewrite Ka; cbn; auto]]. intros p (_ & _ & A). exact A.
    - intros m. eapply calm_pre; [|apply Go]. intros p [(U0 & A & B) O]. split; auto. }
  assert (Aft : forall A (m : D A), calm none m (plib_ok loc b) any_ -> calm none (dbind m (fun _ => lib_entries E inc_dt inc_ne loc l b)) (plib_ok loc b) (plib_ok loc)).
  { intros A m Hm. apply calm_then; [apply firm_plib|exact Hm|intros; apply Go]. }
  destruct (String.eqb (y_value k) "usage"); [apply Aft, calm_lift_any, if_quiet|].
  destruct (is_annotation (y_value k)); [apply Aft, calm_make_ext; auto; apply firm_plib|apply Go].
Qed.

Lemma calm_unmarshal_lib loc v : parsed v -> tidy_library E role loc v -> calm none (unmarshal_lib E inc_dt inc_ne loc v) (fun _ => True) (plib_ok loc).
Proof.
  intros P T. unfold unmarshal_lib. destruct v as [k t s c]; cbn [y_kind y_content]. destruct k; try apply calm_err.
  destruct (parsed_map _ _ _ P) as (ps & Q). destruct (T ps Q) as [T1 T2].
  apply (calm_pre none _ (plib_ok loc (PLib [] [] []))).
  - intros p _. split; [intros ? ? []|]. split; intros ? ? [].
  - eapply calm_lib_entries; eauto. intros x. now apply (parsed_in (Y KMap t s c)).
Qed.

(** A computation on the state of the libraries. *)
Lemma link_lib_ok l name x p : sane p -> lib_index l p -> (forall i, x = Some i -> lib_index i p) ->
  exists p' lib, link_lib l name x p = (Ok tt, p') /\ sane p' /\ steps none p p' /\ nth_error (p_libs p) l = Some lib
    /\ nth_error (p_libs p') l = Some (Lib (l_types lib) (l_annots lib) (oset name x (l_uses lib))) /\ grown_at l p p'.
Proof.
  intros S L X. unfold link_lib. destruct (nth_error (p_libs p) l) as [lib|] eqn:N; [|apply nth_error_None in N; unfold lib_index in L; lia].
  eexists _, lib. split; [reflexivity|]. set (lib' := Lib _ _ _).
  assert (Ln : List.length (upd l lib' (p_libs p)) = List.length (p_libs p)) by apply upd_length.
  assert (Lo : lib_ok p lib') by (destruct (a_libs _ S lib (nth_error_In _ _ N)) as [A B]; split; [exact A|]; cbn; intros n i J; apply Parse_fresh.in_oset in J; destruct J as [J|J]; [apply X; auto|eauto]).
  split; [|split; [split; [apply hsteps_refl|cbn; rewrite Ln; auto]|split; [auto|split; [cbn; eapply nth_error_upd_eq; eauto|]]]].
  - destruct S as [A B C D F G]. split; cbn; auto.
    + intros path f J. eapply (frag_ok_mono p); cbn; auto. rewrite Ln; auto.
    + intros lb J. apply in_upd in J. eapply (lib_ok_mono p); cbn; auto; [rewrite Ln; auto|]. destruct J as [->|J]; auto.
  - split; cbn; auto.
    + intros i lb Ni J. now rewrite nth_error_upd_neq by auto.
    + intros i lb Li J. assert (Y : nth_error (upd l lib' (p_libs p)) i = None) by (apply nth_error_None; rewrite Ln; auto). congruence.
    + congruence.
Qed.

Lemma link_uses_calm loc l m : ~ sealed -> uses_ok loc m -> forall p, sane p -> lib_index l p ->
  match link_uses E inc_lib loc l m p with
  | (Ok good, p') => sane p' /\ steps none p p' /\ (good = true -> grown_at l p p' /\ forall lib, nth_error (p_libs p) l = Some lib ->
      exists lib', nth_error (p_libs p') l = Some lib' /\ forall n, oget n (l_uses lib') = Some None -> oget n (l_uses lib) = Some None /\ ~ In n (map fst m))
  | (Err, p') => sane p' /\ steps none p p'
  | (Panic, _) => False
  | (OutOfFuel, _) => True
  end.
Proof.
  intros Nc. induction m as [|[name value] m IH]; intros O p S L; cbn [link_uses].
  - cbn. split; auto. split; [apply steps_refl|]. intros _. split; [apply grown_is_at, grown_refl|]. intros lib N. exists lib. split; auto.
  - assert (R : role (e_join (d_y E) loc value) = KLibrary) by (eapply O; left; reflexivity).
    assert (O' : uses_ok loc m) by (intros n v J; eapply O; right; eauto). specialize (IH O').
    pose proof (Ilib Nc _ R p S I) as H. unfold dbind at 1. unfold dtry. destruct (inc_lib (e_join (d_y E) loc value) p) as [[i| | |] p1]; auto.
    + destruct H as (S1 & W1 & G1 & Li). pose proof (firm_index none l _ _ W1 L) as L1.
      destruct (link_lib_ok l name (Some i) p1 S1 L1) as (p2 & lib1 & Q & S2 & W2 & N1 & N2 & G2); [intros j Qj; injection Qj as <-; exact Li|].
      unfold dbind at 1. rewrite Q. pose proof (firm_index none l _ _ W2 L1) as L2. specialize (IH p2 S2 L2). unfold dbind.
      destruct (link_uses E inc_lib loc l m p2) as [[good| | |] p3]; auto.
      * cbn. destruct IH as (S3 & W3 & G3). split; auto. split; [eapply steps_trans; [exact W1|]; eapply steps_trans; eauto|]. intros ->.
        destruct (G3 eq_refl) as [G4 X]. split; [eapply grown_at_trans; [exact L|apply grown_is_at; exact G1|]; eapply grown_at_trans; eauto|].
        intros lib N. pose proof (n_libs _ _ G1 _ _ N) as N1'. rewrite N1 in N1'. injection N1' as ->. destruct (X _ N2) as (lib' & N3 & Y). exists lib'. split; auto.
        intros n On. destruct (Y n On) as [A B]. cbn in A. destruct (String.eqb n name) eqn:En.
        -- apply String.eqb_eq in En. subst n. rewrite Pipeline_proofs.oget_oset_same in A. discriminate.
        -- apply String.eqb_neq in En. rewrite Pipeline_proofs.oget_oset_other in A by auto. split; auto. cbn. intros [Z|Z]; auto.
      * destruct IH as (S3 & W3). split; auto. eapply steps_trans; [exact W1|]. eapply steps_trans; eauto.
    + destruct H as (S1 & W1 & _). pose proof (firm_index none l _ _ W1 L) as L1.
      destruct (link_lib_ok l name None p1 S1 L1) as (p2 & lib1 & Q & S2 & W2 & N1 & N2 & G2); [discriminate|].
      unfold dbind at 1. rewrite Q. pose proof (firm_index none l _ _ W2 L1) as L2. specialize (IH p2 S2 L2). unfold dbind.
      destruct (link_uses E inc_lib loc l m p2) as [[good| | |] p3]; auto.
      * cbn. destruct IH as (S3 & W3 & G3). split; auto. split; [eapply steps_trans; [exact W1|]; eapply steps_trans; eauto|]. discriminate.
      * destruct IH as (S3 & W3). split; auto. eapply steps_trans; [exact W1|]. eapply steps_trans; eauto.
Qed.

(** The root node of a document. *)
Lemma document_ok text : match document E text with
  | Ok (Some v) => root_of E text v /\ parsed v
  | Ok None => exists v, root_of E text v /\ null v
  | Err => True
  | _ => False
  end.
Proof.
  unfold document. destruct (e_yaml (d_y E) text) as [d|] eqn:Y0; auto. pose proof (Yaml _ _ Y0) as P. destruct d as [[] tg vl [|[k t v c] more]]; auto.
  assert (Pv : parsed (Y k t v c)) by (eapply parsed_in; [exact P|now left]).
  assert (R : root_of E text (Y k t v c)) by (exists tg, vl, more; exact Y0).
  destruct k; auto. destruct (String.eqb t "!!null") eqn:T; auto. apply String.eqb_eq in T. exists (Y KScalar t v c). split; auto. split; auto.
Qed.

Lemma calm_decode_lib text path : ~ sealed -> role path = KLibrary -> tidy_text E role path text ->
  calm none (decode_lib E inc_dt inc_ne inc_lib text path) (fun _ => True) lib_index.
Proof.
  intros Nc Ro T p S _. unfold decode_lib. unfold dbind at 1, dlift at 1. pose proof (document_ok text) as Dc. destruct (document E text) as [[v|]| | |]; try tauto.
  - destruct Dc as [Rt Pv]. destruct (tt_library _ _ _ _ T Ro v Rt) as [_ Tl].
    pose proof (calm_unmarshal_lib path v Pv Tl p S I) as H. unfold dbind at 1. destruct (unmarshal_lib E inc_dt inc_ne path v p) as [[b| | |] p1]; auto.
    destruct H as (S1 & W1 & G1 & (U1 & T1 & A1)). unfold dbind at 1, new_lib. set (l := List.length (p_libs p1)). set (lib := Lib _ _ _).
    set (p2 := PSt _ _ _ _ _ _ _ _ _).
    assert (L2 : List.length (p_libs p1) < List.length (p_libs p2)) by (cbn; rewrite app_length; cbn; lia).
    assert (S2 : sane p2).
    { destruct S1 as [A B C D F G]. split; cbn; auto.
      - intros q f J. apply (frag_ok_mono p1); cbn; auto. cbn in L2. lia.
      - intros lb J. apply in_app_or in J. destruct J as [J|[<-|[]]]; [apply (lib_ok_mono p1); cbn; auto; cbn in L2; lia|].
        split; [intros k a [J|J]; [exact (T1 _ _ J)|exact (A1 _ _ J)]|]. cbn. intros n i J. unfold unlinked in J. apply in_map_iff in J. destruct J as (x & Q & _). discriminate Q. }
    unfold dbind at 1. set (p3 := snd (put_fragment path (FLib l) None p2)).
    assert (Q3 : put_fragment path (FLib l) None p2 = (Ok tt, p3)) by (unfold p3, put_fragment; destruct (oget path (p_frags p2)); reflexivity).
    assert (Y3 : sane p3 /\ p_libs p3 = p_libs p2 /\ p_st p3 = p_st p2 /\ (forall q f, oget q (p_frags p2) = Some f -> oget q (p_frags p3) = Some f)
       /\ forall q u o, oget q (p_frags p2) = None -> oget q (p_frags p3) <> Some (FDT u o)).
    { unfold p3, put_fragment. destruct (oget path (p_frags p2)) as [f0|] eqn:O0; cbn [snd].
      - split; auto. split; auto. split; auto. split; auto. congruence.
      - split; [|split; [reflexivity|split; [reflexivity|]]].
        + destruct S2 as [A B C D F G]. split; cbn; auto.
          intros q f J. apply in_app_or in J. destruct J as [J|[J|[]]]; [exact (D _ _ J)|]. injection J as <- <-. split; auto.
        + cbn [p_frags]. split.
          * intros q f O. rewrite oget_snoc. now rewrite O.
          * intros q u o O. rewrite oget_snoc, O. destruct (String.eqb q path); discriminate. }
    destruct Y3 as (S3 & Lb3 & St3 & Old3 & New3). rewrite Q3. clearbody p3. clear Q3.
    assert (L3 : lib_index l p3) by (unfold lib_index; rewrite Lb3; exact L2).
    assert (W3 : steps none p1 p3). { split; [unfold H_; rewrite St3; apply hsteps_refl|rewrite Lb3; lia]. }
    pose proof (link_uses_calm path l (pl_uses b) Nc U1 p3 S3 L3) as H. unfold dbind.
    destruct (link_uses E inc_lib path l (pl_uses b) p3) as [[good| | |] p4]; auto.
    + destruct H as (S4 & W4 & G4). destruct good; cbn.
      * split; auto. split; [eapply steps_trans; [exact W1|]; eapply steps_trans; eauto|]. split; [|exact (firm_index none l _ _ W4 L3)].
        destruct (G4 eq_refl) as [G5 X]. assert (N3 : nth_error (p_libs p3) l = Some lib) by (rewrite Lb3; cbn; apply nth_error_snoc).
        destruct (X _ N3) as (lib' & N4 & Y). eapply grown_trans; [exact G1|]. destruct G5 as [B1 B2 B3 B4]. split.
        -- intros i lb N. assert (i < l) by (apply nth_error_lt in N; exact N). apply B1; [lia|]. rewrite Lb3. cbn. rewrite nth_error_app1; auto.
        -- intros i lb Li N. destruct (Nat.eq_dec i l) as [->|D].
           ++ rewrite N4 in N. injection N as <-. intros n On. destruct (Y n On) as [Z1 Z2]. cbn in Z1. apply oget_unlinked in Z1. auto.
           ++ apply (B2 i); auto. rewrite Lb3. cbn. rewrite app_length. cbn. fold l. unfold l in *. lia.
        -- intros q f O. apply B3, Old3. exact O.
        -- intros q u o O O'. destruct (oget q (p_frags p3)) as [f|] eqn:O3; [|eauto]. pose proof (B3 _ _ O3) as Z. rewrite O' in Z. injection Z as <-.
           destruct (New3 q u o O O3).
      * split; auto. split; [eapply steps_trans; [exact W1|]; eapply steps_trans; eauto|tauto].
    + destruct H as (S4 & W4). split; auto. split; [eapply steps_trans; [exact W1|]; eapply steps_trans; eauto|tauto].
  - destruct Dc as (v & Rt & Nu). destruct (tt_library _ _ _ _ T Ro v Rt) as [N _]. destruct (N Nu).
  - split; auto. split; [apply steps_refl|intros; apply grown_refl].
Qed.

Lemma dt_entries_ok path all l ps : pairs_of l ps -> (forall x, In x ps -> In x all) ->
  (forall u, In ("uses", u) all -> Nat.even (List.length (y_content u)) = true /\ libraries E role path u /\ (sealed -> y_content u = [])) ->
  forall m rest rs, uses_ok path m /\ (sealed -> m = []) -> pairs_of rest rs -> (forall x, In x rs -> In x all) ->
  exists m' rest' rs', dt_entries l m rest = Ok (m', rest') /\ (uses_ok path m' /\ (sealed -> m' = [])) /\ pairs_of rest' rs' /\ (forall x, In x rs' -> In x all)
    /\ forall x, In x rest' -> In x l \/ In x rest.
Proof.
  intros Q. induction Q as [|k v l ps Q IH]; intros A U m rest rs O R B; cbn [dt_entries].
  - exists m, rest, rs. auto 6.
  - assert (A' : forall x, In x ps -> In x all) by (intros x J; apply A; now right).
    assert (Go : forall m, uses_ok path m /\ (sealed -> m = []) -> exists m' rest' rs', dt_entries l m rest = Ok (m', rest') /\ (uses_ok path m' /\ (sealed -> m' = [])) /\ pairs_of rest' rs' /\ (forall x, In x rs' -> In x all)
       /\ forall x, In x rest' -> In x (k :: v :: l) \/ In x rest).
    { intros m0 O0. destruct (IH A' U m0 rest rs O0 R B) as (m' & rest' & rs' & H1 & H2 & H3 & H4 & H5). exists m', rest', rs'.
      repeat (split; auto). intros x J. destruct (H5 x J); cbn; auto. }
    destruct (String.eqb (y_value k) "usage"); [auto|]. destruct (String.eqb (y_value k) "uses") eqn:Ku.
    + destruct (String.eqb (y_tag v) "!!null"); [auto|]. apply String.eqb_eq in Ku.
      destruct (U v) as (Ev & Li & Em); [apply A; left; now rewrite Ku|]. destruct (pairs_exist _ Ev) as (us & Qu).
      destruct (uses_quiet path _ _ Qu (fun n w J => Li us n w Qu J) []) as (m' & Um & O'); [intros ? ? []|]. rewrite Um. cbn [rbind]. apply Go. split; auto.
      intros X. rewrite (Em X) in Um. now injection Um.
    + assert (R' : pairs_of (rest ++ [k; v]) (rs ++ [(y_value k, v)])).
      { clear - R. induction R; cbn; [constructor; constructor|constructor; auto]. }
      destruct (IH A' U m _ _ O R') as (m' & rest' & rs' & H1 & H2 & H3 & H4 & H5).
      { intros x J. apply in_app_or in J. destruct J as [J|[<-|[]]]; [auto|]. apply A. now left. }
      exists m', rest', rs'. repeat (split; auto). intros x J. destruct (H5 x J) as [J'|J']; [cbn; auto|].
      apply in_app_or in J'. destruct J' as [J'|[<-|[<-|[]]]]; cbn; auto.
Qed.

Lemma pairs_even l ps : pairs_of l ps -> Nat.even (List.length l) = true.
Proof. induction 1; cbn; auto. Qed.

(** What is left of a data type without [usage] and [uses]. *)
Lemma node_rest loc v ps rest rs : node_ok loc v -> y_kind v = KMap -> pairs_of (y_content v) ps -> pairs_of rest rs -> (forall x, In x rs -> In x ps) ->
  (forall x, In x rest -> In x (y_content v)) -> node_ok loc (Y KMap "" "" rest).
Proof.
  intros [P T] K Q R B In_. destruct v as [k t s c]; cbn [y_kind y_content] in *. subst k. split.
  - constructor; [|discriminate|intros _; eapply pairs_even; eauto]. apply Forall_forall. intros x J. apply (parsed_in (Y KMap t s c)); auto.
  - pose proof (T _ (tn_self _)) as Pl. intros x N. inversion N; subst.
    + split; cbn [y_kind y_content]; try discriminate.
      * intros ps0 u _ Q0 J. rewrite (pairs_fun _ _ _ Q0 R) in J. eapply (pn_facets _ _ _ _ Pl ps); eauto.
      * intros ps0 u _ Q0 J. rewrite (pairs_fun _ _ _ Q0 R) in J. eapply (pn_examples _ _ _ _ Pl ps); eauto.
    + match goal with H : pairs_of rest ?q |- _ => rewrite (pairs_fun _ _ _ H R) in * end. apply T. eapply tn_below; eauto.
    + match goal with H : pairs_of rest ?q |- _ => rewrite (pairs_fun _ _ _ H R) in * end. apply T. eapply tn_member; eauto.
Qed.

Lemma calm_unmarshal_dt loc v : parsed v -> tidy_data_type E role loc v ->
  (sealed -> forall ps u, pairs_of (y_content v) ps -> In ("uses", u) ps -> y_content u = []) ->
  calm none (unmarshal_dt E inc_dt inc_ne loc v) (fun _ => True) (fun r p => (uses_ok loc (fst r) /\ (sealed -> fst r = [])) /\ isb p (snd r)).
Proof.
  intros P [T Us] Em. unfold unmarshal_dt. destruct (y_kind v) eqn:K; try apply calm_err.
  assert (Q : exists ps, pairs_of (y_content v) ps). { destruct v as [k t s c]; cbn in *. subst k. eapply parsed_map; eauto. }
  destruct Q as (ps & Q). destruct (dt_entries_ok loc ps _ _ Q (fun x J => J) (fun u J => conj (proj1 (Us ps u Q J)) (conj (proj2 (Us ps u Q J)) (fun X => Em X ps u Q J))) [] [] []) as (m & rest & rs & -> & O & R & B & In_);
    [split; [intros ? ? []|auto]|constructor|intros ? []|].
  apply (calm_bind none _ _ _ (fun r _ => r = (m, rest))); [apply firm_true|apply calm_lift; [discriminate|]; intros x p H _; now injection H as <-|].
  intros r. apply (calm_pre none _ (fun p => r = (m, rest) /\ True)); [tauto|]. apply calm_pure. intros ->. cbn [fst snd].
  apply (calm_bind none _ _ _ (fun x p => isb p x)); [apply firm_true| |].
  - apply calm_shape_yaml; auto. apply (node_rest loc v ps rest rs); auto. { split; auto. } intros x J. destruct (In_ x J) as [|[]]; auto.
  - intros x. apply calm_ret. intros p [_ Bx]. auto.
Qed.

Lemma in_oset_key {A} k (d : A) m k' v : In (k', v) (oset k d m) -> (k' = k /\ v = d) \/ In (k', v) m.
Proof.
  induction m as [|[k0 v0] m IH]; cbn.
  - intros [Q|[]]. injection Q as <- <-. auto.
  - destruct (String.eqb k k0) eqn:Ek; cbn; intros [Q|Q]; auto.
    + injection Q as <- <-. apply String.eqb_eq in Ek. auto.
    + destruct (IH Q); auto.
Qed.

Lemma link_dt_ok path name i u o p : sane p -> oget path (p_frags p) = Some (FDT u o) -> lib_index i p ->
  exists p', link_dt path true name (Some i) p = (Ok tt, p') /\ sane p' /\ steps none p p' /\ grown_but path p p'
    /\ oget path (p_frags p') = Some (FDT (oset name (Some i) u) o).
Proof.
  intros S Op L. unfold link_dt. rewrite Op. eexists. split; [reflexivity|].
  split; [|split; [split; [apply hsteps_refl|auto]|split; [|cbn; apply Pipeline_proofs.oget_oset_same]]].
  - pose proof (Pipeline_proofs.oget_In _ _ _ Op) as J0. destruct S as [A B C D F G]. pose proof (D _ _ J0) as (X1 & X2 & X3 & X4). split; cbn; auto.
    intros q f J. apply in_oset_key in J. destruct J as [[-> ->]|J]; [|exact (D _ _ J)]. split; auto. split; auto. split; auto.
    intros n l J. apply Parse_fresh.in_oset in J. destruct J as [J|J]; [injection J as ->; exact L|eauto].
  - split; cbn; auto; try congruence.
    + intros j lib Lj N. apply nth_error_None in Lj. congruence.
    + intros q f Nq O. now rewrite Pipeline_proofs.oget_oset_other by auto.
    + intros q u0 o0 Nq O O'. rewrite Pipeline_proofs.oget_oset_other in O' by auto. congruence.
Qed.

Lemma link_dt_uses_calm path m : (~ sealed \/ m = []) -> uses_ok path m -> forall p u o, sane p -> oget path (p_frags p) = Some (FDT u o) ->
  match link_dt_uses E inc_lib path true m p with
  | (Ok _, p') => sane p' /\ steps none p p' /\ grown_but path p p' /\
      exists u', oget path (p_frags p') = Some (FDT u' o) /\ forall n, oget n u' = Some None -> oget n u = Some None /\ ~ In n (map fst m)
  | (Err, p') => sane p' /\ steps none p p'
  | (Panic, _) => False
  | (OutOfFuel, _) => True
  end.
Proof.
  induction m as [|[name value] m IH]; intros Nc Ok_ p u o S Op; cbn [link_dt_uses].
  - cbn. split; auto. split; [apply steps_refl|]. split; [apply grown_is_but, grown_refl|]. exists u. split; auto.
  - assert (R : role (e_join (d_y E) path value) = KLibrary) by (eapply Ok_; left; reflexivity).
    assert (O' : uses_ok path m) by (intros n v J; eapply Ok_; right; eauto). destruct Nc as [Nc|Nc]; [|discriminate Nc]. specialize (IH (or_introl Nc) O').
    pose proof (Ilib Nc _ R p S I) as H. unfold dbind at 1. destruct (inc_lib (e_join (d_y E) path value) p) as [[i| | |] p1]; [|tauto|tauto|auto].
    destruct H as (S1 & W1 & G1 & Li). pose proof (n_old _ _ G1 _ _ Op) as Op1.
    destruct (link_dt_ok path name i u o p1 S1 Op1 Li) as (p2 & Q & S2 & W2 & G2 & Op2). unfold dbind at 1. rewrite Q.
    specialize (IH p2 _ _ S2 Op2). destruct (link_dt_uses E inc_lib path true m p2) as [[x| | |] p3]; auto.
    + destruct IH as (S3 & W3 & G3 & u' & Op3 & Y). split; auto. split; [eapply steps_trans; [exact W1|]; eapply steps_trans; eauto|].
      split; [eapply grown_but_trans; [apply grown_is_but; exact G1|]; eapply grown_but_trans; eauto|]. exists u'. split; auto.
      intros n On. destruct (Y n On) as [A B]. destruct (String.eqb n name) eqn:En.
      * apply String.eqb_eq in En. subst n. rewrite Pipeline_proofs.oget_oset_same in A. discriminate.
      * apply String.eqb_neq in En. rewrite Pipeline_proofs.oget_oset_other in A by auto. split; auto. cbn. intros [Z|Z]; auto.
    + destruct IH as (S3 & W3). split; auto. eapply steps_trans; [exact W1|]. eapply steps_trans; eauto.
Qed.

Lemma link_dt_uses_idle path m (Pre : pst -> Prop) : (~ sealed \/ m = []) -> uses_ok path m -> firm none Pre -> calm none (link_dt_uses E inc_lib path false m) Pre any_.
Proof.
  intros Nc O Fi. induction m as [|[name value] m IH]; cbn [link_dt_uses]; [apply calm_ret; intros; exact I|].
  destruct Nc as [Nc|Nc]; [|discriminate Nc].
  apply calm_then; auto.
  - apply (calm_sub none _ (fun _ => True) _ lib_index); [auto|intros; exact I|]. apply Ilib; auto. eapply O. left. reflexivity.
  - intros l. apply calm_then; auto; [|intros; apply IH; auto; intros n v J; eapply O; right; eauto].
    intros p S P. unfold link_dt. split; auto. split; [apply steps_refl|]. split; [apply grown_refl|exact I].
Qed.

Lemma json_tidy path text : text <> "composite" -> parsed (json_document text) /\ tidy_data_type E role path (json_document text).
Proof.
  intros N. split.
  - assert (Sc : forall x, parsed (Y KScalar "!!str" x [])) by (intros x; constructor; [constructor|discriminate|discriminate]).
    constructor; [|discriminate|auto]. constructor; [apply Sc|]. constructor; [apply Sc|constructor].
  - assert (G : forall k v, y_value k = "type" -> y_kind v = KScalar -> y_tag v = "!!str" -> y_value v = text -> tidy_data_type E role path (Y KMap "" "" [k; v])).
    { intros k v Kk Kv Tv Vv.
      assert (Q : forall ps, pairs_of [k; v] ps -> ps = [("type", v)]).
      { intros ps Q0. inversion Q0 as [|? ? ? ? Q1]; subst. inversion Q1; subst. now rewrite Kk. }
      split.
      - intros x Nx. inversion Nx as [|? ? ? ? ? J Tn|? ? ? ? ? ? ? Qp J K Tn|? ? ? ? ? ? ? ? ? ? Qp J K Qq Jq Tn]; subst.
        + split; cbn [y_kind y_content]; try discriminate; intros ps u _ Q0 J; rewrite (Q _ Q0) in J; destruct J as [J|[]]; discriminate J.
        + rewrite (Q _ Qp) in J. destruct J as [J|[]]. injection J as <- <-. destruct v as [kv tv vv cv]. cbn in Kv, Tv. subst kv tv.
          inversion Tn; subst. split; cbn [y_kind y_content y_tag y_value] in *; try discriminate; auto.
        + rewrite (Q _ Qp) in J. destruct J as [J|[]]. injection J as <- <-. destruct K as [K|[K|[]]]; discriminate K.
      - intros ps u Q0 J. cbn in Q0. rewrite (Q _ Q0) in J. destruct J as [J|[]]; discriminate J. }
    apply G; reflexivity.
Qed.

Lemma steps_frag p f d : steps none p (PSt (p_st p) (p_libs p) f d (p_exts p) (p_types p) (p_annots p) (p_todo p) (p_facets p)).
Proof. split; [apply hsteps_refl|auto]. Qed.

Lemma calm_decode_dt text path : (~ sealed \/ sealed) -> role path = KDataType -> tidy_text E role path text ->
  (sealed -> forall v ps u, root_of E text v -> pairs_of (y_content v) ps -> In ("uses", u) ps -> y_content u = []) ->
  calm none (decode_dt E inc_dt inc_ne inc_lib text path) (fun _ => True) (fun d p => has (H_ p) d TDT).
Proof.
  intros Dec Ro T Em p S _. unfold decode_dt.
  assert (Doc : exists r, (if has_suffix ".json" path then dret (Some (json_document text)) else dlift (document E text)) p = (r, p)
     /\ (r = Err \/ exists v, r = Ok (Some v) /\ parsed v /\ tidy_data_type E role path v
       /\ (sealed -> forall ps u, pairs_of (y_content v) ps -> In ("uses", u) ps -> y_content u = []))).
  { destruct (has_suffix ".json" path) eqn:Js.
    - eexists. split; [reflexivity|]. right. eexists. split; [reflexivity|].
      destruct (json_tidy path text) as [J1 J2]; [apply (tt_json _ _ _ _ T); auto|]. split; auto. split; auto.
      intros _ ps u Q J. inversion Q as [|? ? ? ? Q1]; subst. inversion Q1; subst. destruct J as [J|[]]. discriminate J.
    - eexists. split; [reflexivity|]. pose proof (document_ok text) as Dc. destruct (document E text) as [[v|]| | |]; try tauto.
      + right. exists v. split; auto. destruct Dc as [Rt Pv]. split; auto. split; [now apply (tt_data_type _ _ _ _ T)|]. intros X ps u. now apply Em.
      + destruct Dc as (v & Rt & Nu). destruct (tt_data_type _ _ _ _ T Ro Js v Rt) as [N _]. destruct (N Nu). }
  unfold dbind at 1. destruct Doc as (r & -> & [->|(v & -> & Pv & Tv & Emv)]); [split; auto; split; [apply steps_refl|intros; apply grown_refl]|].
  pose proof (calm_unmarshal_dt path v Pv Tv Emv p S I) as H. unfold dbind at 1. destruct (unmarshal_dt E inc_dt inc_ne path v p) as [[r| | |] p1]; auto.
  destruct H as (S1 & W1 & G1 & ((U1 & Ug) & B1)). assert (Nc : ~ sealed \/ fst r = []) by (destruct Dec; auto). unfold dbind at 1, dget. unfold dbind at 1, hp, alloc. set (a := List.length _). set (s2 := St _ _ _).
  fold (with_st p1 s2). set (p2 := with_st p1 s2).
  destruct (new_box none (H_ p1) (CDT (Some (snd r))) ltac:(discriminate)) as (C2 & W2 & N2 & _); [exists (snd r); auto|exact (a_cells _ S1)|].
  assert (S2 : sane p2) by (apply (sane_st none p1 s2 S1 C2 W2)).
  assert (St2 : steps none p1 p2) by (apply (steps_st none p1 s2 W2)).
  assert (B2 : isb p2 (snd r)) by (exact (firm_isb none _ _ _ St2 B1)).
  destruct (oget path (p_frags p1)) as [f0|] eqn:O1.
  - unfold dbind at 1, put_fragment. cbn [p2 with_st p_frags]. rewrite O1.
    pose proof (link_dt_uses_idle path (fst r) (fun _ => True) Nc U1 (firm_true none) p2 S2 I) as H. unfold dbind. unfold p2, with_st in *.
    destruct (link_dt_uses E inc_lib path false (fst r) _) as [[x| | |] p3]; auto.
    + destruct H as (S3 & W3 & G3 & _). cbn. split; auto. split; [eapply steps_trans; [exact W1|]; eapply steps_trans; eauto|].
      split; [|exact (firm_has none a TDT _ _ W3 N2)]. eapply grown_trans; [exact G1|]. eapply grown_trans; [|exact G3]. now apply grown_same.
    + destruct H as (S3 & W3 & G3). split; auto. split; [eapply steps_trans; [exact W1|]; eapply steps_trans; eauto|]. intros X. eapply grown_trans; [exact G1|]. eapply grown_trans; [|exact (G3 X)]. now apply grown_same.
  - unfold dbind at 1, put_fragment. cbn [p2 with_st p_frags]. rewrite O1. set (fr := FDT _ _). set (p3 := PSt _ _ _ _ _ _ _ _ _).
    assert (S3 : sane p3).
    { destruct S2 as [A B C D F G]. split; cbn; auto.
      - intros q x J. apply in_app_or in J. destruct J as [J|[J|[]]]; [exact (C _ _ J)|]. injection J as _ <-. exact N2.
      - assert (Dn : forall x, oget x (p_dts p1) <> None -> oget x (p_dts p1 ++ [(path, a)]) <> None).
        { intros x. rewrite oget_snoc. destruct (oget x (p_dts p1)); [discriminate|congruence]. }
        intros q f J. apply in_app_or in J. destruct J as [J|[J|[]]]; [apply (frag_ok_mono p2); cbn; auto; exact (D _ _ J)|].
        injection J as <- <-. split; auto. split; [exists (snd r); auto|]. split.
        + cbn. rewrite oget_snoc. destruct (oget path (p_dts p1)); [discriminate|]. rewrite String.eqb_refl. discriminate.
        + intros n l J. unfold unlinked in J. apply in_map_iff in J. destruct J as (x & Q & _). discriminate Q. }
    assert (O3 : oget path (p_frags p3) = Some fr) by (cbn; rewrite oget_snoc, O1, String.eqb_refl; reflexivity).
    assert (St3 : steps none p2 p3) by apply steps_frag.
    pose proof (link_dt_uses_calm path (fst r) Nc U1 p3 _ _ S3 O3) as H. unfold dbind.
    destruct (link_dt_uses E inc_lib path true (fst r) p3) as [[x| | |] p4] eqn:Lk; auto.
    + destruct H as (S4 & W4 & G4 & u' & O4 & Y). cbn. split; auto. split; [eapply steps_trans; [exact W1|]; eapply steps_trans; [exact St2|]; eapply steps_trans; eauto|].
      split; [|exact (firm_has none a TDT _ _ W4 N2)]. eapply grown_trans; [exact G1|]. destruct G4 as [X1 X2 X3 X4]. split.
      * exact X1.
      * exact X2.
      * intros q f O. apply X3; [congruence|]. cbn. rewrite oget_snoc. now rewrite O.
      * intros q u0 o0 O O'. destruct (string_dec q path) as [->|D].
        -- rewrite O4 in O'. injection O' as <- <-. intros n On. destruct (Y n On) as [Z1 Z2]. apply oget_unlinked in Z1. auto.
        -- apply (X4 q u0 o0 D); auto. cbn. rewrite oget_snoc, O. destruct (String.eqb q path) eqn:Eq; [apply String.eqb_eq in Eq; congruence|reflexivity].
    + destruct H as (S4 & W4). split; auto. split; [eapply steps_trans; [exact W1|]; eapply steps_trans; [exact St2|]; eapply steps_trans; eauto|]. intros X. rewrite (Ug X) in Lk. discriminate Lk.
Qed.
End Fragment.

Lemma calm_put_ne path (Pre : pst -> Prop) : role path = KNamedExample -> calm none (put_fragment path FNE None) Pre any_.
Proof.
  intros Ro p S _. unfold put_fragment. destruct (oget path (p_frags p)) as [f|] eqn:O.
  - split; auto. split; [apply steps_refl|]. split; [apply grown_refl|exact I].
  - split; [|split; [apply steps_frag|split; [|exact I]]].
    + destruct S as [A B C D F G]. split; cbn; auto. intros q f J. apply in_app_or in J. destruct J as [J|[J|[]]]; [exact (D _ _ J)|].
      injection J as <- <-. exact Ro.
    + split; cbn; auto.
      * intros i lib L N. apply nth_error_None in L. congruence.
      * intros q f Oq. rewrite oget_snoc. now rewrite Oq.
      * intros q u o Oq. rewrite oget_snoc, Oq. destruct (String.eqb q path); discriminate.
Qed.

Lemma calm_decode_ne text path : role path = KNamedExample -> calm none (decode_ne E text path) (fun _ => True) any_.
Proof.
  intros Ro. unfold decode_ne. pose proof (document_ok text) as Dc. destruct (document E text) as [o| | |]; try tauto; [|intros p S _; cbn; split; auto; split; [apply steps_refl|intros; apply grown_refl]].
  apply (calm_bind none _ _ _ (fun o' _ => o' = o)); [apply firm_true|apply calm_lift; [discriminate|]; intros x p H _; now injection H as <-|].
    intros o'. apply (calm_pre none _ (fun p => o' = o /\ True)); [tauto|]. apply calm_pure. intros ->.
    destruct o as [v|]; [|now apply calm_put_ne]. destruct Dc as [_ Pv]. destruct v as [k t s c]; cbn [y_kind y_content]. destruct k; try apply calm_err.
    destruct (parsed_map _ _ _ Pv) as (ps & Q). apply calm_then; [apply firm_true| |intros; now apply calm_put_ne].
    eapply calm_example_map; [apply firm_true|exact Q|]. intros x. now apply (parsed_in (Y KMap t s c)).
Qed.

(** * Files *)

Section Files.
Hypothesis Files : forall path text, e_read (d_y E) path = Some text -> tidy_text E role path text.
Hypothesis Bare : sealed -> no_uses_in_types E role.
Hypothesis Dec : ~ sealed \/ sealed.

Lemma open_ok path k : match open_fragment E path k with
  | Ok text => e_read (d_y E) path = Some text
  | Err => True
  | _ => False
  end.
Proof.
  unfold open_fragment. destruct (e_read (d_y E) path) as [text|]; auto. destruct (check_kind path (Rd text 0) k) as [[u| | |] r]; auto.
Qed.

Lemma stay U (p : pst) : sane p -> sane p /\ steps U p p /\ (sealed -> grown p p).
Proof. intros S. split; auto. split; [apply steps_refl|intros; apply grown_refl]. Qed.

Lemma calm_parse_ne path : role path = KNamedExample -> calm none (parse_ne E path) (fun _ => True) any_.
Proof.
  intros Ro p S _. unfold parse_ne. unfold dbind at 1, dget. destruct (oget path (p_frags p)) as [f|] eqn:O.
  - pose proof (a_frags _ S _ _ (Pipeline_proofs.oget_In _ _ _ O)) as K. destruct f; cbn in K.
    + destruct K; congruence.
    + destruct K; congruence.
    + cbn. split; auto. split; [apply steps_refl|]. split; [apply grown_refl|exact I].
  - unfold dbind, dlift. pose proof (open_ok path KNamedExample) as H. destruct (open_fragment E path KNamedExample) as [text| | |]; try tauto.
    + exact (calm_decode_ne text path Ro p S I).
    + now apply stay.
Qed.

Lemma calm_files n : (forall path, role path = KDataType -> calm none (parse_dt E n path) (fun _ => True) (fun d p => has (H_ p) d TDT))
  /\ (~ sealed -> forall path, role path = KLibrary -> calm none (parse_lib E n path) (fun _ => True) lib_index).
Proof.
  induction n as [|n [IHd IHl]]; [split; intros; intros p S _; exact I|]. split.
  - intros path Ro p S _. rewrite parse_dt_eq. destruct (oget path (p_frags p)) as [f|] eqn:O.
    + pose proof (a_frags _ S _ _ (Pipeline_proofs.oget_In _ _ _ O)) as K. destruct f; cbn in K.
      * destruct K; congruence.
      * destruct K as (_ & _ & K & _). destruct (oget path (p_dts p)) as [x|] eqn:Od; [|congruence].
        split; auto. split; [apply steps_refl|]. split; [apply grown_refl|]. exact (a_dts _ S _ _ (Pipeline_proofs.oget_In _ _ _ Od)).
      * congruence.
    + unfold dbind, dlift. pose proof (open_ok path KDataType) as H. destruct (open_fragment E path KDataType) as [text| | |]; try tauto; [|now apply stay].
      refine (calm_decode_dt _ _ _ IHd calm_parse_ne IHl text path Dec Ro (Files _ _ H) _ p S I).
      intros X v ps u. exact (Bare X path text v ps u H Ro).
  - intros Nc path Ro p S _. rewrite parse_lib_eq. destruct (oget path (p_frags p)) as [f|] eqn:O.
    + pose proof (a_frags _ S _ _ (Pipeline_proofs.oget_In _ _ _ O)) as K. destruct f; cbn in K.
      * destruct K as [_ K]. split; auto. split; [apply steps_refl|]. split; [apply grown_refl|exact K].
      * destruct K; congruence.
      * congruence.
    + unfold dbind, dlift. pose proof (open_ok path KLibrary) as H. destruct (open_fragment E path KLibrary) as [text| | |]; try tauto; [|now apply stay].
      exact (calm_decode_lib _ _ _ IHd calm_parse_ne IHl text path Nc Ro (Files _ _ H) p S I).
Qed.

(** The entry point. *)
Lemma calm_decode_fragment n text path : ~ sealed -> tidy_entry E role path text ->
  calm none (decode_fragment E n text path) (fun _ => True) any_.
Proof.
  intros Nc [T R]. unfold decode_fragment. destruct (read_head (Rd text 0)) as [[head| | |] r] eqn:Hd; try apply calm_err.
  destruct (identify_fragment head) as [k| | |] eqn:Ik; try apply calm_err. pose proof (R _ _ _ eq_refl Ik) as Ro.
  destruct (calm_files n) as [Fd Fl]. destruct k; try apply calm_err.
  - apply calm_then; [apply firm_true|eapply calm_sub; [| |exact (calm_decode_lib _ _ _ Fd calm_parse_ne Fl text path Nc Ro T)]; auto; intros; exact I|].
    intros l. apply calm_ret. intros; exact I.
  - apply calm_then; [apply firm_true|eapply calm_sub; [| |apply (calm_decode_dt _ _ _ Fd calm_parse_ne Fl text path Dec Ro T); tauto]; auto; intros; exact I|].
    intros l. apply calm_ret. intros; exact I.
  - apply calm_then; [apply firm_true|now apply calm_decode_ne|]. intros l. apply calm_ret. intros; exact I.
Qed.

(** * Resolution *)

(** All links to libraries are set. *)
Definition full (p : pst) : Prop :=
  (forall i lib, nth_error (p_libs p) i = Some lib -> linked (l_uses lib))
  /\ forall path u o, oget path (p_frags p) = Some (FDT u o) -> linked u.

Lemma full_grown p p' : grown p p' -> full p -> full p'.
Proof.
  intros [A B C D] [F G]. split.
  - intros i lib N. destruct (nth_error (p_libs p) i) as [lib0|] eqn:N0.
    + pose proof (A _ _ N0) as X. rewrite N in X. injection X as ->. eauto.
    + apply nth_error_None in N0. eauto.
  - intros path u o O. destruct (oget path (p_frags p)) as [f|] eqn:O0; [|eauto]. pose proof (C _ _ O0) as X. rewrite O in X. injection X as <-. eauto.
Qed.

Lemma calm_fbind U {A B} (m : D A) (f : A -> D B) (Pre : pst -> Prop) Q (Post : B -> pst -> Prop) :
  firm U Pre -> calm U m (fun p => full p /\ Pre p) Q -> (forall a, calm U (f a) (fun p => full p /\ Pre p /\ Q a p) Post) ->
  calm U (dbind m f) (fun p => full p /\ Pre p) Post.
Proof.
  intros Fi Hm Hf p S [F P]. unfold dbind. specialize (Hm p S (conj F P)). destruct (m p) as [[a| | |] p1]; auto.
  destruct Hm as (S1 & W1 & G1 & Q1). pose proof (Hf a p1 S1 (conj (full_grown _ _ G1 F) (conj (Fi _ _ W1 P) Q1))) as H.
  destruct (f a p1) as [[b| | |] p2]; auto.
  - destruct H as (S2 & W2 & G2 & P2). split; auto. split; [eapply steps_trans; eauto|]. split; [eapply grown_trans; eauto|auto].
  - destruct H as (S2 & W2 & G2). split; auto. split; [eapply steps_trans; eauto|]. intros X. eapply grown_trans; eauto.
Qed.

Lemma calm_same U {A} (m m' : D A) Pre (Post : A -> pst -> Prop) : (forall p, m' p = m p) -> calm U m Pre Post -> calm U m' Pre Post.
Proof. intros Q H p S P. rewrite Q. exact (H p S P). Qed.

(** A reference. *)
Lemma lib_reference_ok (sel : library -> omap nat) p lib name : sane p -> full p -> In lib (p_libs p) -> linked (l_uses lib) ->
  (forall lib0 k a, In lib0 (p_libs p) -> oget k (sel lib0) = Some a -> isb p a) ->
  match lib_reference sel (p_libs p) lib name with Ok a => isb p a | Err => True | _ => False end.
Proof.
  intros S F J Li Here. unfold lib_reference. destruct (cut_reference name) as [[before after] found]. destruct (negb found).
  - destruct (oget name (sel lib)) as [a|] eqn:O; [exact (Here _ _ _ J O)|exact I].
  - destruct (oget name (sel lib)) as [a|] eqn:O; [exact (Here _ _ _ J O)|]. destruct (oget before (l_uses lib)) as [[la|]|] eqn:Ou; auto.
    + pose proof (proj2 (a_libs _ S _ J) _ _ (Pipeline_proofs.oget_In _ _ _ Ou)) as L. apply nth_error_Some in L.
      destruct (nth_error (p_libs p) la) as [lib2|] eqn:N2; [|congruence]. apply nth_error_In in N2. destruct (oget after (sel lib2)) as [a|] eqn:O2; [exact (Here _ _ _ N2 O2)|exact I].
    + exact (Li _ Ou).
Qed.

Lemma dt_reference_ok (sel : library -> omap nat) p uses name : sane p -> links_ok p uses -> linked uses ->
  (forall lib0 k a, In lib0 (p_libs p) -> oget k (sel lib0) = Some a -> isb p a) ->
  match dt_reference sel (p_libs p) uses name with Ok a => isb p a | Err => True | _ => False end.
Proof.
  intros S K Li Here. unfold dt_reference. destruct (cut_reference name) as [[before after] found]. destruct (negb found); auto.
  destruct (oget before uses) as [[la|]|] eqn:Ou; auto.
  - pose proof (K _ _ (Pipeline_proofs.oget_In _ _ _ Ou)) as L. apply nth_error_Some in L.
    destruct (nth_error (p_libs p) la) as [lib2|] eqn:N2; [|congruence]. apply nth_error_In in N2. destruct (oget after (sel lib2)) as [a|] eqn:O2; [exact (Here _ _ _ N2 O2)|exact I].
  - exact (Li _ Ou).
Qed.

Lemma types_isb p : sane p -> forall lib k a, In lib (p_libs p) -> oget k (l_types lib) = Some a -> isb p a.
Proof. intros S lib k a J O. apply Pipeline_proofs.oget_In in O. exact (proj1 (a_libs _ S _ J) k a (or_introl O)). Qed.
Lemma annots_isb p : sane p -> forall lib k a, In lib (p_libs p) -> oget k (l_annots lib) = Some a -> isb p a.
Proof. intros S lib k a J O. apply Pipeline_proofs.oget_In in O. exact (proj1 (a_libs _ S _ J) k a (or_intror O)). Qed.

Lemma ref_ok p name loc : sane p -> full p -> match ref_type p name loc with Ok a => isb p a | Err => True | _ => False end.
Proof.
  intros S F. unfold ref_type. destruct (oget loc (p_frags p)) as [[l|uses sh|]|] eqn:O; auto.
  - destruct (a_frags _ S _ _ (Pipeline_proofs.oget_In _ _ _ O)) as [_ L]. apply nth_error_Some in L.
    destruct (nth_error (p_libs p) l) as [lib|] eqn:N; [|congruence]. pose proof (proj1 F _ _ N) as Li. apply nth_error_In in N.
    apply lib_reference_ok; auto. now apply types_isb.
  - destruct (a_frags _ S _ _ (Pipeline_proofs.oget_In _ _ _ O)) as (_ & _ & _ & K). apply dt_reference_ok; auto; [exact (proj2 F _ _ _ O)|now apply types_isb].
Qed.

Lemma annot_ok p name loc : sane p -> full p -> match ref_annot (raml_of p) name loc with Ok a => isb p a | Err => True | _ => False end.
Proof.
  intros S F. unfold ref_annot. cbn [raml_of r_frags r_libs]. destruct (oget loc (p_frags p)) as [[l|uses sh|]|] eqn:O; auto.
  - destruct (a_frags _ S _ _ (Pipeline_proofs.oget_In _ _ _ O)) as [_ L]. apply nth_error_Some in L.
    destruct (nth_error (p_libs p) l) as [lib|] eqn:N; [|congruence]. pose proof (proj1 F _ _ N) as Li. apply nth_error_In in N.
    apply lib_reference_ok; auto. now apply annots_isb.
  - destruct (a_frags _ S _ _ (Pipeline_proofs.oget_In _ _ _ O)) as (_ & _ & _ & K). apply dt_reference_ok; auto; [exact (proj2 F _ _ _ O)|now apply annots_isb].
Qed.

Lemma exts_ok p l : sane p -> full p -> resolve_exts (raml_of p) l <> Panic.
Proof.
  intros S F. induction l as [|e l IH]; cbn [resolve_exts]; [discriminate|].
  pose proof (annot_ok p (e_name e) (e_loc e) S F) as H. destruct (ref_annot (raml_of p) (e_name e) (e_loc e)); try tauto;
  destruct (resolve_exts (raml_of p) l) as [[ok l'']| | |]; try discriminate; exact IH.
Qed.

(** The facets that are used for [a]. *)
Definition fac (a : addr) (fs : option fnodes) (p : pst) : Prop := exists b, get_base (H_ p) a = Some b /\ facets_ok (b_loc b) fs.
Lemma firm_fac U a fs : firm U (fac a fs).
Proof. intros p p' [[_ B _] _] (b & G & L). destruct (B _ _ G) as (b' & G' & L' & _). exists b'. split; auto. now rewrite L'. Qed.
Lemma fac_isb a fs p : fac a fs p -> isb p a.
Proof. intros (b & G & _). eapply get_base_has; eauto. Qed.
Lemma known_isb a p : known (H_ p) a -> isb p a.
Proof. intros (b & G & _). eapply get_base_has; eauto. Qed.
Lemma fac_none a p : isb p a -> fac a None p.
Proof. intros B. apply has_base in B. destruct B as (b & G). exists b. split; auto. discriminate. Qed.

Lemma known_type p a b : sane p -> known (H_ p) a -> get_base (H_ p) a = Some b -> builtin (b_type b) = true.
Proof. intros S K G. destruct (known_not_hollow _ _ _ K G) as (sh & Sh & N). exact (k_kind _ _ (base_at _ _ _ S G) _ Sh N). Qed.

Lemma firm_kn a : firm none (fun p => known (H_ p) a).
Proof. apply firm_known. intros []. Qed.

(** What keeps the kind of [a] is done after it was set. *)
Lemma calm_keep U {A} (m : D A) (Pre P : pst -> Prop) : firm U P -> calm U m Pre any_ -> calm U m (fun p => Pre p /\ P p) (fun _ p => P p).
Proof.
  intros Fi H p S [X Y]. specialize (H p S X). destruct (m p) as [[u| | |] p']; auto. destruct H as (A1 & B & C & _). split; auto. split; auto. split; auto. exact (Fi _ _ B Y).
Qed.

Lemma calm_alias a r : calm none (hp (upd_base a (set_alias (Some r)))) (fun p => isb p a /\ isb p r) any_.
Proof.
  apply calm_upd; [|intros; exact I|tauto]. intros p b S [_ Br] G. pose proof (base_at _ _ _ S G) as [K1 K2 K3 K4 K5 K6 K7 K8].
  split; [split; cbn; auto; intros d Q; injection Q as <-; exact Br|]. split; [reflexivity|]. split; [exact (c_rooted _ (a_cells _ S) _ _ G)|].
  right. split; auto.
Qed.

Lemma calm_parent a r : calm none (hp (b' <- rd get_base a ;; l <- rd get_slice (b_inherits b') ;; Heap.write (b_inherits b') (CSlice (l ++ [r])))%M)
  (fun p => isb p a /\ isb p r) any_.
Proof.
  apply calm_hp. intros p S [Ba Br]. apply has_base in Ba. destruct Ba as (b & G).
  destruct (has_slice _ _ (k_inherits _ _ (base_at _ _ _ S G))) as (l & Gl). pose proof (proj1 (get_slice_nth _ _ _) Gl) as N.
  destruct (put_box none (H_ p) (b_inherits b) (CSlice l) (CSlice (l ++ [r])) N eq_refl ltac:(discriminate)) as [C W].
  - cbn. intros y J. apply in_app_or in J. destruct J as [J|[<-|[]]]; [|exact Br]. exact (c_cells _ (a_cells _ S) _ _ N y J).
  - intros l0 l1 Q0 Q1 _. injection Q1 as <-. destruct l; discriminate.
  - exact (a_cells _ S).
  - eexists tt, _. unfold bind, rd. unfold H_ in G, Gl. rewrite G, Gl. split; [reflexivity|]. split; [exact C|]. split; [exact W|exact I].
Qed.

Lemma calm_set_members a sl : calm none (hp (set_members a sl)) (fun p => isb p a /\ has (H_ p) sl TSlice) any_.
Proof.
  apply calm_upd; [|intros; exact I|tauto]. intros p b S [_ Hs] G. pose proof (base_at _ _ _ S G) as K. pose proof K as [K1 K2 K3 K4 K5 K6 K7 K8].
  assert (Same : base_ok (H_ p) b /\ b_loc b = b_loc b /\ rooted (H_ p) b /\ (none a \/ ((~ hollow b -> ~ hollow b) /\ (object b -> object b)))).
  { split; [exact K|]. split; auto. split; [exact (c_rooted _ (a_cells _ S) _ _ G)|]. right. auto. }
  destruct (b_shape b) as [[]|] eqn:Sh; try exact Same.
  split; [|split; [reflexivity|split]].
  - split; cbn; auto.
    + intros s Q. injection Q as <-. exact Hs.
    + intros s Q _. apply (K7 _ eq_refl). discriminate.
  - intros Q. discriminate Q.
  - right. split; [intros _ [Q|Q]; discriminate Q|]. intros (f0 & Q). congruence.
Qed.

Lemma calm_slice l : calm none (hp (alloc (CSlice l))) (fun p => forall y, In y l -> isb p y) (fun sl p => has (H_ p) sl TSlice).
Proof.
  apply calm_hp. intros p S Hl. destruct (new_box none (H_ p) (CSlice l) ltac:(discriminate) Hl (a_cells _ S)) as (C & W & N & _).
  eexists _, _. unfold alloc. split; [reflexivity|]. split; [exact C|]. split; [exact W|exact N].
Qed.

Lemma calm_members a l : calm none (sl <- hp (alloc (CSlice l)) ;; hp (set_members a sl))%D
  (fun p => known (H_ p) a /\ forall y, In y l -> isb p y) (fun _ p => known (H_ p) a).
Proof.
  apply (calm_bind none _ _ _ (fun sl p => has (H_ p) sl TSlice)); [apply firm_and; [apply firm_kn|apply firm_all_isb]| |].
  - eapply calm_pre; [|apply calm_slice]. tauto.
  - intros sl. eapply calm_pre; [|apply (calm_keep none _ (fun p => isb p a /\ has (H_ p) sl TSlice)); [apply firm_kn|apply calm_set_members]].
    cbn. intros p [[K _] H]. split; auto. split; auto. now apply known_isb.
Qed.

(** A type that was not known may become anything. *)
Lemma calm_hollow a {A} (m : D A) Pre (Post : A -> pst -> Prop) : calm (eq a) m Pre Post ->
  calm none m (fun p => Pre p /\ exists b, get_base (H_ p) a = Some b /\ hollow b) Post.
Proof.
  intros H p S (P & b & G & Ho). specialize (H p S P). assert (X : forall p', steps (eq a) p p' -> steps none p p') by (intros p' [St L]; split; auto; eapply hsteps_hollow; eauto).
  destruct (m p) as [[u| | |] p']; auto; intuition.
Qed.

Section See.
Variable m0 : nat.
Notation conc := (concrete_yaml E (parse_dt E m0) (parse_ne E)).
Variable rec : addr -> D unit.
Hypothesis Rec : forall a, calm none (rec a) (fun p => full p /\ isb p a) (fun _ p => known (H_ p) a).

Lemma calm_conc a t fs : builtin t = true -> calm (eq a) (conc a t fs) (fac a fs) (fun _ p => known (H_ p) a).
Proof.
  intros B. eapply calm_sub; [| |apply (calm_concrete_yaml _ _ (proj1 (calm_files m0)) calm_parse_ne a t fs)].
  - intros p F. split; [exact F|]. intros ->. discriminate B.
  - cbn. auto.
Qed.

Lemma calm_conc_open a : calm (eq a) (conc a "" None) (fac a None) any_.
Proof.
  eapply calm_sub; [| |apply (calm_concrete_yaml _ _ (proj1 (calm_files m0)) calm_parse_ne a "" None)].
  - intros p F. split; [exact F|]. discriminate.
  - cbn. intros; exact I.
Qed.

Lemma calm_new {A} name loc (f : addr -> D A) (Post : A -> pst -> Prop) :
  (forall a, calm (eq a) (f a) (fun p => full p /\ fac a None p) Post) -> calm none (dbind (hp (make_base name loc)) f) full Post.
Proof.
  intros Hf p S F. unfold dbind, hp. destruct (new_base_ok name loc (p_st p) (a_cells _ S)) as (a & s1 & b & Mk & C1 & W1 & G1 & L1 & Sh & La).
  rewrite Mk. fold (with_st p s1). pose proof (sane_st none p s1 S C1 W1) as S1. pose proof (steps_st none p s1 W1) as St1.
  assert (Gr : grown p (with_st p s1)) by now apply grown_same.
  assert (Fc : fac a None (with_st p s1)) by (apply fac_none; eapply get_base_has; exact G1).
  pose proof (Hf a _ S1 (conj (full_grown _ _ Gr F) Fc)) as H. destruct (f a (with_st p s1)) as [[x| | |] p2]; auto.
  - destruct H as (A1 & A2 & A3 & A4). split; auto. split; [eapply steps_new; eauto|]. split; [|auto]. eapply grown_trans; eauto.
  - destruct H as (A1 & A2 & A3). split; auto. split; [eapply steps_new; eauto|]. intros X. eapply grown_trans; eauto.
Qed.

Lemma calm_fresh_nil loc : calm none (fresh_shape conc "" "nil" loc) full (fun x p => isb p x).
Proof.
  apply calm_new. intros a. apply (calm_fbind _ _ _ _ (fun _ p => known (H_ p) a)); [apply firm_fac| |].
  - eapply calm_pre; [|apply calm_conc; reflexivity]. tauto.
  - intros u. apply calm_ret. intros p (_ & _ & K). now apply known_isb.
Qed.

(** A new type that is settled at once, and what is done then. *)
Lemma calm_fresh {B} loc (see : addr -> D unit) (rest : addr -> D B) (Pre : pst -> Prop) (Post : B -> pst -> Prop) : firm none Pre ->
  (forall x, calm (eq x) (see x) (fun p => full p /\ fac x None p) (fun _ p => known (H_ p) x)) ->
  (forall x, calm none (rest x) (fun p => full p /\ Pre p /\ isb p x) Post) ->
  calm none (x <- fresh_shape conc "" "" loc ;; see x ;;; rest x)%D (fun p => full p /\ Pre p) Post.
Proof.
  intros Fi Hs Hr.
  apply (calm_same none (dbind (dbind (hp (make_base "" loc)) (fun x => dbind (conc x "" None) (fun _ => dbind (see x) (fun _ => dret x)))) rest)).
  - intros p. unfold fresh_shape, dbind, dret. destruct (hp (make_base "" loc) p) as [[x| | |] p1]; try reflexivity.
    destruct (conc x "" None p1) as [[u| | |] p2]; try reflexivity. destruct (see x p2) as [[v| | |] p3]; reflexivity.
  - apply (calm_fbind none _ _ _ (fun x p => isb p x)); auto. eapply calm_pre; [|apply calm_new]; [cbn; tauto|].
    intros a. apply (calm_fbind _ _ _ _ any_); [apply firm_fac|eapply calm_pre; [|apply calm_conc_open]; tauto|]. intros u0.
    apply (calm_pre _ _ (fun p => full p /\ fac a None p)); [tauto|].
    apply (calm_fbind _ _ _ _ (fun _ p => known (H_ p) a)); [apply firm_fac|apply Hs|]. intros _. apply calm_ret. intros p (_ & _ & K). now apply known_isb.
Qed.

Lemma calm_look U {B} name loc (k : addr -> D B) (Pre : pst -> Prop) (Post : B -> pst -> Prop) :
  (forall r, calm U (k r) (fun p => full p /\ Pre p /\ isb p r) Post) ->
  calm U (p <- dget ;; r <- dlift (ref_type p name loc) ;; k r)%D (fun p => full p /\ Pre p) Post.
Proof.
  intros H p S [F P]. unfold dbind, dget, dlift. pose proof (ref_ok p name loc S F) as R. destruct (ref_type p name loc) as [r| | |]; try tauto; [|now apply stay].
  apply H; auto.
Qed.

Lemma calm_see_ref name a fs : calm (eq a) (see_ref conc rec name a fs) (fun p => full p /\ fac a fs p) (fun _ p => known (H_ p) a).
Proof.
  unfold see_ref. apply (calm_fbind _ _ _ _ (fun _ _ => True)); [apply firm_fac|eapply calm_sub; [| |apply (calm_rd_base _ a (fun p => isb p a)); auto]; [intros p [_ F]; eapply fac_isb; eauto|auto]|].
  intros b. apply (calm_pre _ _ (fun p => full p /\ fac a fs p)); [tauto|].
  apply calm_look. intros r.
  apply (calm_fbind _ _ _ _ (fun _ _ => True)); [apply firm_and; [apply firm_fac|apply firm_isb]|eapply calm_sub; [| |apply (calm_rd_base _ r (fun p => isb p r)); auto]; auto; tauto|].
  intros rb. apply (calm_pre _ _ (fun p => full p /\ fac a fs p /\ isb p r)); [tauto|]. destruct (Z.eqb (b_id rb) (b_id b)); [apply calm_err|].
  apply (calm_fbind _ _ _ _ (fun _ p => known (H_ p) r)); [apply firm_and; [apply firm_fac|apply firm_isb]|apply (calm_weak none); [intros x []|]; eapply calm_pre; [|apply Rec]; tauto|].
  intros _.
  assert (Tail : forall t, builtin t = true -> calm (eq a) (dbind (conc a t fs) (fun _ => match fs with
      | None => hp (upd_base a (set_alias (Some r)))
      | Some _ => hp (b' <- rd get_base a ;; l <- rd get_slice (b_inherits b') ;; Heap.write (b_inherits b') (CSlice (l ++ [r])))%M
      end)) (fun p => full p /\ fac a fs p /\ isb p r) (fun _ p => known (H_ p) a)).
  { intros t Bt. apply (calm_fbind _ _ _ _ (fun _ p => known (H_ p) a)); [apply firm_and; [apply firm_fac|apply firm_isb]|eapply calm_pre; [|apply calm_conc; exact Bt]; tauto|].
    intros _. apply (calm_weak none); [intros x []|].
    apply (calm_pre _ _ (fun p => (isb p a /\ isb p r) /\ known (H_ p) a)); [intros p (_ & (F & R) & K); split; auto; split; auto; eapply fac_isb; eauto|].
    destruct fs; (apply (calm_keep none _ (fun p => isb p a /\ isb p r)); [apply firm_kn|]); [apply calm_parent|apply calm_alias]. }
  intros p S (F & (Fa & Br) & K). unfold dbind at 1, hp at 1, rd. apply has_base in Br. destruct Br as (rb' & Gr). pose proof Gr as Gr'. unfold H_ in Gr'. rewrite Gr'. fold (with_st p (p_st p)). rewrite with_same.
  refine (Tail (b_type rb') (known_type _ _ _ S K Gr) p S _). split; auto. split; auto. eapply get_base_has; eauto.
Qed.

Lemma calm_see_members loc a (see : typ -> addr -> option fnodes -> D unit) ts :
  (forall t, In t ts -> forall x fs, calm (eq x) (see t x fs) (fun p => full p /\ fac x fs p) (fun _ p => known (H_ p) x)) ->
  calm none ((fix members (l : list typ) : D (list addr) :=
               match l with
               | [] => dret []
               | t :: l' =>
                   (x <- fresh_shape conc "" "" loc ;;
                   see t x None ;;;
                   r <- members l' ;;
                   dret (x :: r))%D
               end) ts) (fun p => full p /\ known (H_ p) a) (fun xs p => known (H_ p) a /\ forall y, In y xs -> isb p y).
Proof.
  intros S. induction ts as [|t ts IH].
  - apply calm_ret. intros p [_ K]. split; auto. intros y [].
  - apply calm_fresh; [apply firm_kn|intros x; apply S; now left|]. intros x.
    apply (calm_fbind none _ _ (fun p => known (H_ p) a /\ isb p x) (fun xs p => known (H_ p) a /\ forall y, In y xs -> isb p y)); [apply firm_and; [apply firm_kn|apply firm_isb]| |].
    + eapply calm_pre; [|apply IH; intros t' J; apply S; now right]. tauto.
    + intros r. apply calm_ret. intros p (_ & (K & B) & _ & H). split; auto. intros y [<-|J]; auto.
Qed.

Lemma calm_rd_known a : calm none (hp (rd get_base a)) (fun p => full p /\ known (H_ p) a) any_.
Proof. eapply calm_sub; [| |apply (calm_rd_base none a (fun p => isb p a)); auto]; [intros p [_ K]; now apply known_isb|intros; exact I]. Qed.

(** Visiting sets the kind first, the rest keeps it. *)
Lemma calm_visit a t fs (k : D unit) : builtin t = true -> calm none k (fun p => full p /\ known (H_ p) a) (fun _ p => known (H_ p) a) ->
  calm (eq a) (conc a t fs ;;; k)%D (fun p => full p /\ fac a fs p) (fun _ p => known (H_ p) a).
Proof.
  intros B K. apply (calm_fbind _ _ _ _ (fun _ p => known (H_ p) a)); [apply firm_fac|eapply calm_pre; [|now apply calm_conc]; tauto|].
  intros _. apply (calm_weak none); [intros x []|]. eapply calm_pre; [|exact K]. tauto.
Qed.

Definition sees (f : addr -> option fnodes -> D unit) : Prop := forall a fs, calm (eq a) (f a fs) (fun p => full p /\ fac a fs p) (fun _ p => known (H_ p) a).

Lemma calm_see : (forall e, sees (see_expr conc rec e)) /\ (forall t, sees (see_typ conc rec t)) /\ (forall at_, sees (see_atom conc rec at_)).
Proof.
  apply (Resolve_proofs.trees_all (fun e => sees (see_expr conc rec e)) (fun t => sees (see_typ conc rec t)) (fun at_ => sees (see_atom conc rec at_))).
  - intros t Q a fs. exact (Q a fs).
  - intros t1 t2 ts Q1 Q2 Qs a fs. rewrite see_union_eq. apply calm_visit; [reflexivity|].
    apply (calm_fbind none _ _ _ any_); [apply firm_kn|apply calm_rd_known|]. intros b. apply (calm_pre _ _ (fun p => full p /\ known (H_ p) a)); [tauto|].
    apply calm_fresh; [apply firm_kn|intros x; apply Q1|]. intros x1.
    apply (calm_fresh _ _ _ (fun p => known (H_ p) a /\ isb p x1)); [apply firm_and; [apply firm_kn|apply firm_isb]|intros x; apply Q2|]. intros x2.
    rewrite Forall_forall in Qs.
    apply (calm_pre _ _ (fun p => full p /\ (known (H_ p) a /\ isb p x1 /\ isb p x2))); [tauto|].
    apply (calm_fbind none _ _ _ (fun xs p => known (H_ p) a /\ forall y, In y xs -> isb p y)).
    + apply firm_and; [apply firm_kn|]. apply firm_and; apply firm_isb.
    + eapply calm_pre; [|apply (calm_see_members (b_loc b) a (see_typ conc rec) ts); intros t J; apply (Qs t J)]. tauto.
    + intros xs. eapply calm_pre; [|apply calm_members]. cbn beta. intros p (_ & (K & B1 & B2) & _ & H). split; auto. intros y [<-|[<-|J]]; auto.
  - intros at_ Q a fs. exact (Q a fs).
  - intros at_ Q a fs. rewrite see_array_eq. apply calm_visit; [reflexivity|].
    apply (calm_fbind none _ _ _ any_); [apply firm_kn|apply calm_rd_known|]. intros b. apply (calm_pre _ _ (fun p => full p /\ known (H_ p) a)); [tauto|].
    apply calm_fresh; [apply firm_kn|intros x; apply Q|]. intros x1.
    eapply calm_pre; [|apply (calm_keep none _ (fun p => isb p a /\ isb p x1)); [apply firm_kn|apply calm_items]]. cbn beta. intros p (_ & K & B). split; auto. split; auto. now apply known_isb.
  - intros at_ Q a fs. rewrite see_optional_eq. apply calm_visit; [reflexivity|].
    apply (calm_fbind none _ _ _ any_); [apply firm_kn|apply calm_rd_known|]. intros b. apply (calm_pre _ _ (fun p => full p /\ known (H_ p) a)); [tauto|].
    apply calm_fresh; [apply firm_kn|intros x; apply Q|]. intros x1.
    apply (calm_fbind none _ _ _ (fun x p => isb p x)); [apply firm_and; [apply firm_kn|apply firm_isb]|eapply calm_pre; [|apply calm_fresh_nil]; tauto|]. intros nl.
    eapply calm_pre; [|apply calm_members]. cbn beta. intros p (_ & (K & B1) & B2). split; auto. intros y [<-|[<-|[]]]; auto.
  - intros t a fs. eapply calm_pre; [|apply (calm_conc a (prim_text t) None), prim_builtin]. intros p [_ F]. apply fac_none. eapply fac_isb; eauto.
  - intros e Q a fs. exact (Q a fs).
  - intros s o a fs. apply calm_see_ref.
Qed.

Lemma calm_settle_each l : calm none (settle_each rec l) (fun p => full p /\ forall y, In y l -> isb p y) (fun _ p => forall y, In y l -> known (H_ p) y).
Proof.
  induction l as [|x l IH]; cbn [settle_each]; [apply calm_ret; intros p _ y []|].
  apply (calm_fbind none _ _ _ (fun _ p => known (H_ p) x)); [apply firm_all_isb|eapply calm_pre; [|apply Rec]; intros p [F H]; split; auto; apply H; now left|].
  intros _ p S (F & H & K). pose proof (IH p S (conj F (fun y J => H y (or_intror J)))) as X. destruct (settle_each rec l p) as [[u| | |] p']; auto.
  destruct X as (A1 & A2 & A3 & A4). split; auto. split; auto. split; auto. intros y [<-|J]; [|auto]. exact (firm_kn x _ _ A2 K).
Qed.
End See.

Lemma facets_fac p a : sane p -> isb p a -> fac a (facets_of a (p_facets p)) p.
Proof.
  intros S B. assert (Q : facets_of a (p_facets p) = None \/ In (a, facets_of a (p_facets p)) (p_facets p)).
  { induction (p_facets p) as [|[a' fs] l IH]; cbn; auto. destruct (Nat.eqb a a') eqn:Ea; [apply Nat.eqb_eq in Ea; subst a'; auto|]. destruct IH; auto. }
  destruct Q as [->|J]; [now apply fac_none|]. exact (a_facets _ S _ _ J).
Qed.

Lemma calm_settle m n : forall a, calm none (settle E m n a) (fun p => full p /\ isb p a) (fun _ p => known (H_ p) a).
Proof.
  induction n as [|n IH]; intros a p S [F B]; [exact I|]. cbn [settle].
  pose proof B as Ba. apply has_base in Ba. destruct Ba as (b & Gb). unfold dbind at 1, hp at 1, rd. pose proof Gb as Gb'. unfold H_ in Gb'. rewrite Gb'. fold (with_st p (p_st p)). rewrite with_same.
  unfold dbind at 1, dget. destruct (b_shape b) as [sh|] eqn:Sh; [|now apply stay].
  assert (Done : sh <> SUnknown -> match dret tt p with
    | (Ok a0, p') => sane p' /\ steps none p p' /\ grown p p' /\ known (H_ p') a
    | (Err, p') => sane p' /\ steps none p p' /\ (sealed -> grown p p')
    | (Panic, _) => False
    | (OutOfFuel, _) => True
    end).
  { intros N. cbn. split; auto. split; [apply steps_refl|]. split; [apply grown_refl|]. exists b. split; auto. intros [Q|Q]; congruence. }
  destruct sh; try (apply Done; discriminate). clear Done.
  pose proof (facets_fac p a S B) as Fa. set (fs := facets_of a (p_facets p)) in *. clearbody fs.
  assert (Ho : exists b, get_base (H_ p) a = Some b /\ hollow b) by (exists b; split; auto; right; exact Sh).
  pose proof (base_at _ _ _ S Gb) as Kb.
  assert (Fin : forall x, isb p x -> calm (eq a) (qb <- hp (rd get_base x) ;; concrete_yaml E (parse_dt E m) (parse_ne E) a (b_type qb) fs)%D
     (fun q => fac a fs q /\ known (H_ q) x) (fun _ q => known (H_ q) a)).
  { intros x _ q Sq [Fq Kq]. pose proof (known_isb _ _ Kq) as Bx. apply has_base in Bx. destruct Bx as (qb & Gq).
    unfold dbind at 1, hp at 1, rd. pose proof Gq as Gq'. unfold H_ in Gq'. rewrite Gq'. fold (with_st q (p_st q)). rewrite with_same.
    exact (calm_conc m a _ fs (known_type _ _ _ Sq Kq Gq) q Sq Fq). }
  destruct (b_link b) as [l|] eqn:Lk.
  - pose proof (k_link _ _ Kb _ Lk) as Hl. destruct Hl as (c & Nc & Sc). destruct c as [| | | |o]; try discriminate Sc.
    destruct (c_cells _ (a_cells _ S) _ _ Nc) as (ds & -> & Hd). unfold dbind at 1, hp at 1, rd.
    assert (Gd : get_dt (heap (p_st p)) l = Some (Some ds)) by (unfold get_dt; unfold H_ in Nc; rewrite Nc; reflexivity).
    rewrite Gd. fold (with_st p (p_st p)). rewrite with_same.
    refine (calm_hollow a _ (fun q => full q /\ fac a fs q /\ isb q ds) _ _ p S _); [|auto].
    apply (calm_fbind _ _ _ _ (fun _ q => known (H_ q) ds)); [apply firm_and; [apply firm_fac|apply firm_isb]|apply (calm_weak none); [intros x []|]; eapply calm_pre; [|apply IH]; tauto|].
    intros _. eapply calm_pre; [|apply (Fin ds Hd)]. tauto.
  - destruct (String.eqb (b_type b) "composite") eqn:Ct.
    + apply String.eqb_eq in Ct. destruct (c_rooted _ (a_cells _ S) _ _ Gb Sh Lk Ct) as (ps & Gp & Np).
      unfold dbind at 1, hp at 1, rd. pose proof Gp as Gp'. unfold H_ in Gp'. rewrite Gp'. fold (with_st p (p_st p)). rewrite with_same.
      destruct ps as [|q0 ps]; [congruence|].
      assert (Hps : forall y, In y (q0 :: ps) -> isb p y) by (apply get_slice_nth in Gp; exact (c_cells _ (a_cells _ S) _ _ Gp)).
      refine (calm_hollow a _ (fun q => full q /\ fac a fs q /\ forall y, In y (q0 :: ps) -> isb q y) _ _ p S _); [|auto].
      apply (calm_fbind _ _ _ _ (fun _ q => forall y, In y (q0 :: ps) -> known (H_ q) y)); [apply firm_and; [apply firm_fac|apply firm_all_isb]|apply (calm_weak none); [intros x []|]; eapply calm_pre; [|apply calm_settle_each; exact IH]; tauto|].
      intros _. eapply calm_pre; [|apply (Fin q0); apply Hps; now left]. cbn beta. intros q (_ & (F1 & _) & K). split; auto. apply K. now left.
    + destruct (read_type (b_type b)) as [e|]; [|now apply stay].
      refine (calm_hollow a _ (fun q => full q /\ fac a fs q) _ _ p S _); [|auto].
      exact (proj1 (calm_see m _ IH) e a fs).
Qed.

Lemma calm_settle_all m n k good : sealed -> calm none (settle_all E m n k good) full (fun _ p => full p).
Proof.
  intros Sl. revert good. induction k as [|k IH]; intros good p S F; [exact I|]. cbn [settle_all]. unfold dbind at 1, dget. destruct (p_todo p) as [|a l] eqn:T.
  - cbn. split; auto. split; [apply steps_refl|]. split; [apply grown_refl|auto].
  - assert (B : isb p a) by (apply (a_todo _ S); rewrite T; now left).
    assert (Go : forall p1 r, sane p1 -> steps none p p1 -> grown p p1 ->
      match (drop_todo ;;; settle_all E m n k r)%D p1 with
      | (Ok _, p') => sane p' /\ steps none p p' /\ grown p p' /\ full p'
      | (Err, p') => sane p' /\ steps none p p' /\ (sealed -> grown p p')
      | (Panic, _) => False
      | (OutOfFuel, _) => True
      end).
    { intros p1 r S1 W1 G1. unfold dbind, drop_todo. set (p2 := PSt _ _ _ _ _ _ _ _ _).
      assert (S2 : sane p2). { destruct S1 as [A1 B1 C1 D1 E1 F1]. split; cbn; auto. intros x J. apply B1. destruct (p_todo p1); [exact J|now right]. }
      assert (W2 : steps none p1 p2) by (split; [apply hsteps_refl|auto]). assert (G2 : grown p1 p2) by now apply grown_same.
      assert (G02 : grown p p2) by (eapply grown_trans; eauto). pose proof (IH r p2 S2 (full_grown _ _ G02 F)) as H.
      destruct (settle_all E m n k r p2) as [[x| | |] p3]; auto.
      - destruct H as (S3 & W3 & G3 & F3). split; auto. split; [eapply steps_trans; [exact W1|]; eapply steps_trans; eauto|]. split; [eapply grown_trans; eauto|auto].
      - destruct H as (S3 & W3 & G3). split; auto. split; [eapply steps_trans; [exact W1|]; eapply steps_trans; eauto|]. intros X. eapply grown_trans; eauto. }
    pose proof (calm_settle m n a p S (conj F B)) as H. unfold dbind at 1, dtry. destruct (settle E m n a p) as [[x| | |] p1]; auto.
    + destruct H as (S1 & W1 & G1 & _). now apply Go.
    + destruct H as (S1 & W1 & G1). apply Go; auto.
Qed.

Lemma resolve_quiet n p : sealed -> sane p -> full p -> fst (resolve_fragment E n p) <> Panic.
Proof.
  intros Sl S F. unfold resolve_fragment, dbind at 1. pose proof (calm_settle_all n n n true Sl p S F) as H.
  destruct (settle_all E n n n true p) as [[ok| | |] p1]; cbn; try discriminate; [|tauto].
  destruct H as (S1 & _ & _ & F1). destruct ok; cbn; [|discriminate].
  pose proof (exts_ok p1 (p_exts p1) S1 F1) as X. destruct (resolve_exts (raml_of p1) (p_exts p1)) as [[[] l]| | |]; cbn; try discriminate; congruence.
Qed.
End Files.
End Calm.

(** * A new RAML object *)

Lemma sane_new E role : sane E role new_raml.
Proof.
  split; cbn; try (intros; contradiction). split.
  - intros x c N. destruct x; discriminate.
  - intros x b G. destruct x; discriminate.
Qed.

Lemma full_new : full new_raml.
Proof. split; [intros i lib N; destruct i; discriminate|discriminate]. Qed.

Theorem decode_quiet E role n text path : tidy_files E role -> tidy_entry E role path text ->
  match decode_fragment E n text path new_raml with
  | (Ok _, p) => sane E role p /\ full p
  | (Panic, _) => False
  | _ => True
  end.
Proof.
  intros [Y Fi] T. pose proof (calm_decode_fragment E role Y False Fi ltac:(tauto) (or_introl (fun x => x)) n text path (fun x => x) T new_raml (sane_new E role) I) as H.
  destruct (decode_fragment E n text path new_raml) as [[ep| | |] p]; auto. destruct H as (S & _ & G & _). split; auto. exact (full_grown _ _ G full_new).
Qed.

Theorem parse_quiet E role n O o1 o2 o3 text path : tidy_files E role -> tidy_entry E role path text -> no_uses_in_types E role ->
  fst (parse_string E n O o1 o2 o3 false false text path) <> Panic.
Proof.
  intros T Te Nu. unfold parse_string, parse_fragment, dbind at 1. pose proof (decode_quiet E role n text path T Te) as H.
  destruct (decode_fragment E n text path new_raml) as [[ep| | |] p]; try discriminate; [|tauto].
  destruct H as [S F]. pose proof (resolve_quiet E role (proj1 T) True (proj2 T) (fun _ => Nu) (or_intror I) n p I S F) as R.
  unfold dbind at 1. destruct (resolve_fragment E n p) as [[u| | |] p1]; cbn in *; congruence.
Qed.
