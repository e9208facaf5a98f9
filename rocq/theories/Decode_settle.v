(** Types that are resolved have the facets that were kept for them (C62). *)
From Coq Require Import ZArith List String Bool Ascii Lia.
From Verif Require Import Base Scalars Heap Rdt Resolve Names Spec_Names Yaml Spec_Yaml Yaml_proofs Pipeline Spec_Resolve Spec_Model
  Decode Parse Spec_Parse Spec_Decode Parse_ends Heap_lemmas Parse_walk Parse_fresh Decode_says Decode_read Decode_made Decode_load Decode_files.
From Verif Require Pipeline_proofs Resolve_proofs.
Import ListNotations.
Open Scope string_scope.
Open Scope list_scope.
Open Scope nat_scope.

(** ** What a type is resolved from *)

(** The expression in its text. *)
Definition text_expr (b : base) : option expr :=
  match b_link b with
  | Some _ => None
  | None => if String.eqb (b_type b) "composite" then None else read_type (b_type b)
  end.
Definition lossy (b : base) : bool := match text_expr b with Some e => just_prim e | None => false end.
Definition arr (b : base) : bool := match text_expr b with Some e => just_array e | None => false end.
Definition notext (b : base) : Prop := b_link b <> None \/ b_type b = "composite".
Definition real (b : base) : Prop := b_link b <> None \/ b_type b <> "".

(** The facets that are read. *)
Definition eff (lost : bool) (fs : option fnodes) : fnodes :=
  match fs with Some l => if lost then [] else l | None => [] end.

(** The name that an expression consists of. *)
Fixpoint named_in (e : expr) : option string :=
  match e with
  | EType (TAtom (ARef s o)) => Some (ref_text s o)
  | EType (TAtom (AGroup e')) => named_in e'
  | _ => None
  end.

(** The type that gives the kind. *)
Definition origin (p : pst) (b : base) (y : addr) : Prop :=
  match b_link b with
  | Some l => get_dt (H_ p) l = Some (Some y)
  | None =>
      if String.eqb (b_type b) "composite" then exists l, get_slice (H_ p) (b_inherits b) = Some (y :: l)
      else exists e nm, read_type (b_type b) = Some e /\ named_in e = Some nm /\ ref_type p nm (b_loc b) = Ok y
  end.

Definition kindof (p : pst) (x : addr) (t : string) : Prop := exists b, get_base (H_ p) x = Some b /\ ~ hollow b /\ b_type b = t.
Lemma kindof_fun p x t t' : kindof p x t -> kindof p x t' -> t = t'.
Proof. intros (b & G & _ & <-) (b' & G' & _ & <-). congruence. Qed.

(** A cell stays as it is. *)
Definition keeps (p p' : pst) (c : addr) : Prop := forall x, nth_error (H_ p) c = Some x -> nth_error (H_ p') c = Some x.
Lemma keeps_same p p' c : nth_error (H_ p') c = nth_error (H_ p) c -> keeps p p' c. Proof. intros Q x. now rewrite Q. Qed.
Lemma keeps_trans p1 p2 p3 c : keeps p1 p2 c -> keeps p2 p3 c -> keeps p1 p3 c. Proof. unfold keeps. auto. Qed.
Lemma keeps_props p p' c m : keeps p p' c -> get_props (H_ p) c = Some m -> get_props (H_ p') c = Some m.
Proof. intros K G. apply get_props_nth. apply K. now apply get_props_nth. Qed.
Lemma keeps_facets p p' c m : keeps p p' c -> get_facets (H_ p) c = Some m -> get_facets (H_ p') c = Some m.
Proof. intros K G. apply get_facets_nth. apply K. now apply get_facets_nth. Qed.
Lemma keeps_slice p p' c m : keeps p p' c -> get_slice (H_ p) c = Some m -> get_slice (H_ p') c = Some m.
Proof. intros K G. apply get_slice_nth. apply K. now apply get_slice_nth. Qed.

Definition same_at (p p' : pst) (x : addr) (b : base) : Prop :=
  get_base (H_ p') x = Some b
  /\ (forall c, owns b c -> keeps p p' c)
  /\ facets_of x (p_facets p') = facets_of x (p_facets p).

(** ** Where expressions lead *)

Definition isnone {A} (o : option A) : bool := match o with None => true | Some _ => false end.

Definition union_of (p : pst) (x : addr) (ys : list addr) : Prop :=
  exists b sl en, get_base (H_ p) x = Some b /\ b_shape b = Some (SUnion sl en) /\ get_slice (H_ p) sl = Some ys.
Definition array_of (p : pst) (x i : addr) : Prop :=
  exists b f, get_base (H_ p) x = Some b /\ b_shape b = Some (SArray f) /\ a_items f = Some i.
Definition refd (p : pst) (loc nm : string) (plain : bool) (x : addr) : Prop :=
  exists r b, ref_type p nm loc = Ok r /\ get_base (H_ p) x = Some b /\ ~ hollow b /\ kindof p r (b_type b)
    /\ if plain then b_alias b = Some r
       else exists l, get_slice (H_ p) (b_inherits b) = Some l /\ l <> [] /\ forall y, In y l -> y = r.

(** As [leads], with the types of the expression in [F]. *)
Section Led.
Variable F : addr -> Prop.
Variable p : pst.
Variable loc : string.
Fixpoint led (e : expr) (plain : bool) (x : addr) {struct e} : Prop :=
  match e with
  | EType t => led_typ t plain x
  | EUnion t1 t2 ts =>
      exists y1 y2 ys, union_of p x (y1 :: y2 :: ys) /\ (F y1 /\ led_typ t1 true y1) /\ (F y2 /\ led_typ t2 true y2)
        /\ pairwise (fun t y => F y /\ led_typ t true y) ts ys
  end
with led_typ (t : typ) (plain : bool) (x : addr) {struct t} : Prop :=
  match t with
  | TAtom at_ => led_atom at_ plain x
  | TArray at_ => exists i, array_of p x i /\ F i /\ led_atom at_ true i
  | TOptional at_ => exists y n, union_of p x [y; n] /\ F y /\ led_atom at_ true y /\ kindof p n "nil"
  end
with led_atom (at_ : atom) (plain : bool) (x : addr) {struct at_} : Prop :=
  match at_ with
  | APrim t => kindof p x (prim_text t)
  | AGroup e => led e plain x
  | ARef s o => refd p loc (ref_text s o) plain x
  end.
End Led.

Lemma led_union F p loc t1 t2 ts pl x : led F p loc (EUnion t1 t2 ts) pl x =
  exists y1 y2 ys, union_of p x (y1 :: y2 :: ys) /\ (F y1 /\ led_typ F p loc t1 true y1) /\ (F y2 /\ led_typ F p loc t2 true y2)
    /\ pairwise (fun t y => F y /\ led_typ F p loc t true y) ts ys.
Proof. reflexivity. Qed.
Lemma leads_union p loc t1 t2 ts pl x : leads p loc (EUnion t1 t2 ts) pl x =
  exists b sl en y1 y2 ys, get_base (heap (p_st p)) x = Some b /\ b_shape b = Some (SUnion sl en)
    /\ get_slice (heap (p_st p)) sl = Some (y1 :: y2 :: ys)
    /\ leads_typ p loc t1 true y1 /\ leads_typ p loc t2 true y2 /\ pairwise (fun t y => leads_typ p loc t true y) ts ys.
Proof. reflexivity. Qed.
Lemma led_array F p loc at_ pl x : led_typ F p loc (TArray at_) pl x = exists i, array_of p x i /\ F i /\ led_atom F p loc at_ true i.
Proof. reflexivity. Qed.
Lemma led_optional F p loc at_ pl x : led_typ F p loc (TOptional at_) pl x =
  exists y n, union_of p x [y; n] /\ F y /\ led_atom F p loc at_ true y /\ kindof p n "nil".
Proof. reflexivity. Qed.

Lemma pairwise_weak {A B} (f g : A -> B -> Prop) l : forall m, (forall x y, In x l -> f x y -> g x y) -> pairwise f l m -> pairwise g l m.
Proof.
  induction l as [|x l IH]; intros [|y m] W; cbn; auto. intros [H R]. split; [apply W; auto; now left|]. apply IH; auto. intros z t I. apply W. now right.
Qed.

(** Moving to another state: the types in [P] stay. *)
Lemma led_move (F F' P : addr -> Prop) p p' loc :
  (forall nm r, ref_type p nm loc = Ok r -> ref_type p' nm loc = Ok r) -> (forall x t, kindof p x t -> kindof p' x t) ->
  (forall x b, P x -> get_base (H_ p) x = Some b -> ~ hollow b -> get_base (H_ p') x = Some b /\ forall c, owns b c -> keeps p p' c) ->
  (forall z, F z -> P z) -> (forall z, F z -> F' z) ->
  (forall e pl x, P x -> led F p loc e pl x -> led F' p' loc e pl x)
  /\ (forall t pl x, P x -> led_typ F p loc t pl x -> led_typ F' p' loc t pl x)
  /\ (forall at_ pl x, P x -> led_atom F p loc at_ pl x -> led_atom F' p' loc at_ pl x).
Proof.
  intros Rf Kd Ke FP FF.
  assert (Un : forall x ys, P x -> union_of p x ys -> union_of p' x ys).
  { intros x ys Px (b & sl & en & G & S & Gl). destruct (Ke x b Px G) as [G' O]; [intros [Q|Q]; congruence|].
    exists b, sl, en. split; auto. split; auto. revert Gl. apply keeps_slice, O. eapply ow_anyof; eauto. }
  apply (Resolve_proofs.trees_all (fun e => forall pl x, P x -> led F p loc e pl x -> led F' p' loc e pl x)
    (fun t => forall pl x, P x -> led_typ F p loc t pl x -> led_typ F' p' loc t pl x)
    (fun at_ => forall pl x, P x -> led_atom F p loc at_ pl x -> led_atom F' p' loc at_ pl x)).
  - intros t Q. exact Q.
  - intros t1 t2 ts Q1 Q2 Qs pl x Px. rewrite !led_union. intros (y1 & y2 & ys & U & [F1 L1] & [F2 L2] & Ls). exists y1, y2, ys. split; auto. split; [auto|]. split; [auto|].
    rewrite Forall_forall in Qs. eapply pairwise_weak; [|exact Ls]. cbn beta. intros t y I [Fy Ly]. split; auto.
  - intros at_ Q. exact Q.
  - intros at_ Q pl x Px. rewrite !led_array. intros (i & (b & f & G & S & Ai) & Fi & Li). destruct (Ke x b Px G) as [G' O]; [intros [X|X]; congruence|].
    exists i. split; [exists b, f; auto|]. split; auto.
  - intros at_ Q pl x Px. rewrite !led_optional. intros (y & n & U & Fy & Ly & Kn). exists y, n. split; auto.
  - intros t pl x Px K. now apply Kd.
  - intros e Q. exact Q.
  - intros s o pl x Px (r & b & R & G & Nh & K & C). destruct (Ke x b Px G Nh) as [G' O]. exists r, b. split; auto. split; auto. split; auto. split; auto.
    destruct pl; auto. destruct C as (l & Gl & C). exists l. split; auto. revert Gl. apply keeps_slice, O. constructor.
Qed.

Lemma led_wide (F F' : addr -> Prop) p loc e pl x : (forall z, F z -> F' z) -> led F p loc e pl x -> led F' p loc e pl x.
Proof.
  intros W. apply (proj1 (led_move F F' (fun _ => True) p p loc (fun _ _ r => r) (fun _ _ k => k)
    (fun x b _ G _ => conj G (fun c _ y N => N)) (fun _ _ => I) W)). exact I.
Qed.

(** An expression that is a name. *)
Lemma led_named F p loc pl x nm : forall e, named_in e = Some nm -> (led F p loc e pl x <-> refd p loc nm pl x).
Proof.
  apply (proj1 (Resolve_proofs.trees_all (fun e => named_in e = Some nm -> (led F p loc e pl x <-> refd p loc nm pl x))
    (fun t => named_in (EType t) = Some nm -> (led_typ F p loc t pl x <-> refd p loc nm pl x))
    (fun at_ => named_in (EType (TAtom at_)) = Some nm -> (led_atom F p loc at_ pl x <-> refd p loc nm pl x))
    (fun t Q => Q) (fun t1 t2 ts _ _ _ => ltac:(discriminate)) (fun a Q => Q) (fun a _ => ltac:(discriminate)) (fun a _ => ltac:(discriminate))
    (fun t => ltac:(discriminate)) (fun e Q => Q) (fun s o => ltac:(cbn; intros X; injection X as ->; reflexivity)))).
Qed.

Lemma led_leads F p loc :
  (forall e pl x, led F p loc e pl x -> leads p loc e pl x)
  /\ (forall t pl x, led_typ F p loc t pl x -> leads_typ p loc t pl x)
  /\ (forall at_ pl x, led_atom F p loc at_ pl x -> leads_atom p loc at_ pl x).
Proof.
  assert (Kd : forall x t, kindof p x t -> of_kind p x t) by (intros x t (b & G & _ & T); exists b; auto).
  apply (Resolve_proofs.trees_all (fun e => forall pl x, led F p loc e pl x -> leads p loc e pl x)
    (fun t => forall pl x, led_typ F p loc t pl x -> leads_typ p loc t pl x)
    (fun at_ => forall pl x, led_atom F p loc at_ pl x -> leads_atom p loc at_ pl x)).
  - intros t Q. exact Q.
  - intros t1 t2 ts Q1 Q2 Qs pl x. rewrite led_union, leads_union. intros (y1 & y2 & ys & (b & sl & en & G & S & Gl) & [F1 L1] & [F2 L2] & Ls).
    exists b, sl, en, y1, y2, ys. split; auto. split; auto. split; auto. split; [now apply Q1|]. split; [now apply Q2|].
    rewrite Forall_forall in Qs. eapply pairwise_weak; [|exact Ls]. cbn beta. intros t y I [Fy Ly]. now apply Qs.
  - intros at_ Q. exact Q.
  - intros at_ Q pl x. rewrite led_array. intros (i & (b & f & G & S & Ai) & Fi & Li). exists b, f, i. repeat (split; auto).
  - intros at_ Q pl x. rewrite led_optional. intros (y & n & (b & sl & en & G & S & Gl) & Fy & Ly & Kn). exists b, sl, en, y, n. repeat (split; auto).
  - intros t pl x K. now apply Kd.
  - intros e Q. exact Q.
  - intros s o pl x (r & b & R & G & Nh & K & C). exists r, b. split; [|auto]. unfold refers, ref_type in *.
    replace (ref_name s o) with (ref_text s o) by reflexivity.
    destruct (oget loc (p_frags p)) as [[l|us o'|]|]; try discriminate.
    + destruct (nth_error (p_libs p) l) as [lib|]; [|discriminate]. exists lib. split; auto. now apply Names_proofs.lib_reference_iff.
    + now apply Names_proofs.dt_reference_iff.
Qed.

Section Settle.
Variable E : denv.
Variables text0 path0 : string.
Notation source := (source E text0 path0).

(** As [routed]. *)
Definition route : known_as := fun F p v loc x b =>
  forall t, type_node v = Some t ->
  (forall e, expression t e -> y_value t <> "composite" -> led F p loc e (bare_type v) x)
  /\ (y_kind t = KScalar -> y_tag t = "!include" ->
      exists l y, b_link b = Some l /\ get_dt (H_ p) l = Some (Some y) /\ kindof p y (b_type b) /\ from p (e_join (d_y E) loc (y_value t)) l)
  /\ (y_kind t = KSeq ->
      exists y l, get_slice (H_ p) (b_inherits b) = Some (y :: l) /\ kindof p y (b_type b)).
Notation rt := (st_with E route).

Lemma route_wide (F F' : addr -> Prop) p v loc x b : (forall z, F z -> F' z) -> route F p v loc x b -> route F' p v loc x b.
Proof. intros W R t T. destruct (R t T) as (A & B). split; auto. intros e Ex Nc. eapply led_wide; [exact W|]. auto. Qed.
Lemma rt_wide (F F' : addr -> Prop) p v name loc x : (forall z, F z -> F' z) -> rt F p v name loc x -> rt F' p v name loc x.
Proof. intros W. apply st_with_wide; auto. intros v0 l0 y b. now apply route_wide. Qed.
Lemma st_rt (F F' : addr -> Prop) p v name loc x : (forall z, F z -> F' z) -> st E F p v name loc x -> rt F' p v name loc x.
Proof. intros W. apply st_with_wide; auto. intros v0 l0 y b []. Qed.

Lemma route_routed F p v loc x b : (forall path l, In (path, l) (p_dts p) -> located p l path) -> (vague v -> route F p v loc x b) -> routed E p v loc x b.
Proof.
  intros Ds R t T.
  assert (Kd : forall x t, kindof p x t -> of_kind p x t) by (intros x0 t0 (b0 & G & _ & Q); exists b0; auto).
  split; [|split].
  - intros e Ex Nc. apply (proj1 (led_leads F p loc)). apply (R ltac:(exists t; split; auto; destruct Ex as (_ & Q1 & Q2 & Q3 & Q4 & _); intros _; split; [congruence|auto]) t T); auto.
  - intros K Q. destruct (R ltac:(exists t; split; auto; intros _; split; congruence) t T) as (_ & B & _). destruct (B K Q) as (l & y & L & D & O & Fr).
    exists l, y. split; auto. split; auto. split; auto.
    assert (Lo : located p l (e_join (d_y E) loc (y_value t))) by (destruct Fr; auto).
    destruct Lo as (y' & yb & N & Gy & Q'). unfold get_dt in D. change (heap (p_st p)) with (H_ p) in D. rewrite N in D. injection D as <-. exists yb. auto.
  - intros K. destruct (R ltac:(exists t; split; auto; congruence) t T) as (_ & _ & B). destruct (B K) as (y & l & L & O). eauto 10.
Qed.

(** The type [x], as [b] in [p], has become [b'] with the shape [sh]: a kind
    with the facets [fs]. *)
Record made (p p' : pst) (x : addr) (b : base) (fs : fnodes) (it : Prop) (b' : base) (sh : shape) : Prop := {
  md_base : get_base (H_ p') x = Some b';
  md_shape : b_shape b' = Some sh /\ sh <> SUnknown /\ b_type b' = kind_name sh;
  md_doc : same_doc b b';
  md_cells : b_facets b' = b_facets b /\ b_inherits b' = b_inherits b /\ b_link b' = b_link b;
  md_fdefs : keeps p p' (b_fdefs b);
  md_inh : notext b -> keeps p p' (b_inherits b);
  md_box : forall z, boxes sh z -> len p <= z < len p';
  md_read : get_facets (H_ p) (b_facets b) = Some [] ->
    shape_read E p' (rt (span (len p) (len p')) p') fs (b_loc b) it b' sh
}.

Definition became (p p' : pst) (x : addr) (b : base) : Prop :=
  real b /\ exists b' sh, made p p' x b (eff (lossy b) (facets_of x (p_facets p))) (arr b = false) b' sh
    /\ (forall y, origin p b y -> kindof p' y (b_type b'))
    /\ (notext b -> exists y, origin p' b y /\ kindof p' y (b_type b'))
    /\ (get_slice (H_ p) (b_inherits b) = Some [] -> forall e, text_expr b = Some e ->
        led (span (len p) (len p')) p' (b_loc b) e (isnone (facets_of x (p_facets p))) x).

(** Steps of the resolution; [X] are types under construction. *)
Record evo (X : addr -> Prop) (p p' : pst) : Prop := {
  ev_len : len p <= len p';
  ev_old : forall x b, ~ X x -> get_base (H_ p) x = Some b -> same_at p p' x b \/ (b_shape b = Some SUnknown /\ became p p' x b);
  ev_kind : forall x t, kindof p x t -> kindof p' x t;
  ev_dt : forall l o, nth_error (H_ p) l = Some (CDT o) -> nth_error (H_ p') l = Some (CDT o);
  ev_exts : exists l, p_exts p' = p_exts p ++ l;
  ev_grown : grown p p';
  ev_new : forall path f, oget path (p_frags p') = Some f -> oget path (p_frags p) = Some f
    \/ exists text, source path text /\ frag_by E (rt (span (len p) (len p')) p') p' path text f;
  ev_stays : stays p p'
}.

Lemma same_at_refl p x b : get_base (H_ p) x = Some b -> same_at p p x b.
Proof. intros G. split; auto. split; auto. intros c _ y N. exact N. Qed.

Lemma evo_refl X p : evo X p p.
Proof.
  split; auto.
  - intros x b _ G. left. now apply same_at_refl.
  - exists []. now rewrite app_nil_r.
  - apply grown_refl.
  - apply stays_refl.
Qed.

Lemma evo_weak (X X' : addr -> Prop) p p' : (forall z, X z -> X' z) -> evo X p p' -> evo X' p p'.
Proof. intros W [A B C D G H I J]. split; auto. Qed.

Lemma ref_type_grown p p' nm loc y : grown p p' -> ref_type p nm loc = Ok y -> ref_type p' nm loc = Ok y.
Proof.
  intros [Gf Gl] H. unfold ref_type in *. destruct (oget loc (p_frags p)) as [f|] eqn:O; [|discriminate]. rewrite (Gf _ _ O).
  destruct f as [l|uses o|]; [| |discriminate].
  - destruct (nth_error (p_libs p) l) as [lib|] eqn:N; [|discriminate]. rewrite (Gl _ _ N).
    unfold lib_ref_type, lib_reference in *. destruct (cut_reference nm) as [[before after] found]. destruct (negb found); auto.
    destruct (oget nm (l_types lib)); auto. destruct (oget before (l_uses lib)) as [[la|]|]; auto. destruct (nth_error (p_libs p) la) as [lb|] eqn:N'; [|discriminate]. now rewrite (Gl _ _ N').
  - unfold dt_reference in *. destruct (cut_reference nm) as [[before after] found]. destruct (negb found); auto.
    destruct (oget before uses) as [[la|]|]; auto. destruct (nth_error (p_libs p) la) as [lb|] eqn:N'; [|discriminate]. now rewrite (Gl _ _ N').
Qed.

Lemma evo_libs X p p' : evo X p p' -> same_libs p p'.
Proof. intros V l lib N. exists lib. split; auto. apply (gr_libs _ _ (ev_grown _ _ _ V)); auto. Qed.

Lemma hollow_not b sh : b_shape b = Some sh -> sh <> SUnknown -> ~ hollow b.
Proof. intros S N [Q|Q]; congruence. Qed.

Lemma made_kind p p' x b fs it b' sh : made p p' x b fs it b' sh -> kindof p' x (b_type b').
Proof. intros M. exists b'. split; [exact (md_base _ _ _ _ _ _ _ _ M)|]. split; auto. destruct (md_shape _ _ _ _ _ _ _ _ M) as (S & N & _). eapply hollow_not; eauto. Qed.

(** ** Declarations stay as written *)

Lemma text_lossy v b : type_text v (b_type b) -> builtin (b_type b) = false -> lossy b = true -> own_facets v = [] \/ wrapped_name v.
Proof.
  intros T B L. unfold lossy, text_expr in L. destruct (b_link b); [discriminate|]. destruct (String.eqb (b_type b) "composite"); [discriminate|].
  destruct (read_type (b_type b)) as [e|] eqn:R; [|discriminate].
  destruct (own_facets v) as [|o l] eqn:O; [auto|]. right. split; [congruence|]. eauto 10.
Qed.
Lemma text_arr v b : type_text v (b_type b) -> builtin (b_type b) = false -> arr b = true -> array_text v.
Proof.
  intros T B L. unfold arr, text_expr in L. destruct (b_link b); [discriminate|]. destruct (String.eqb (b_type b) "composite"); [discriminate|].
  destruct (read_type (b_type b)) as [e|] eqn:R; [|discriminate]. exists (b_type b), e. auto.
Qed.

Lemma vague_kind v b : (exists t, type_node v = Some t /\ (y_kind t = KScalar -> y_tag t <> "!!null"
     /\ (y_tag t = "!!str" -> y_value t <> "" /\ (forall s, y_value t <> String "{" s) /\ builtin (y_value t) = false))) -> kind_read E v b.
Proof.
  intros (t & T & K). unfold kind_read. rewrite T. destruct (y_kind t); auto. destruct (K eq_refl) as [N S]. split; [intros Q; contradiction|].
  intros Q. destruct (S Q) as (A & B & C). split; [intros X; contradiction|]. split; [intros s X; destruct (B s X)|congruence].
Qed.

Definition with_new (F : addr -> Prop) (p p' : pst) (z : addr) : Prop := F z \/ span (len p) (len p') z.

Lemma known_evo X p p' x b : evo X p p' -> ~ X x -> get_base (H_ p) x = Some b -> ~ hollow b -> same_at p p' x b.
Proof. intros V Nx G Nh. destruct (ev_old _ _ _ V x b Nx G) as [S|(Un & _)]; auto. destruct Nh. now right. Qed.

Lemma led_evo (X F F' : addr -> Prop) p p' loc e pl x : evo X p p' -> (forall z, F z -> ~ X z) -> (forall z, F z -> F' z) -> ~ X x ->
  led F p loc e pl x -> led F' p' loc e pl x.
Proof.
  intros V FX FF Nx. apply (proj1 (led_move F F' (fun z => ~ X z) p p' loc (fun nm r => ref_type_grown p p' nm loc r (ev_grown _ _ _ V)) (ev_kind _ _ _ V)
    (fun y b Ny G Nh => let S := known_evo X p p' y b V Ny G Nh in conj (proj1 S) (proj1 (proj2 S))) FX FF)). exact Nx.
Qed.

Lemma route_evo (X F F' : addr -> Prop) p p' v loc x b : evo X p p' -> (forall z, F z -> ~ X z) -> (forall z, F z -> F' z) -> ~ X x ->
  get_base (H_ p) x = Some b -> ~ hollow b -> route F p v loc x b -> route F' p' v loc x b.
Proof.
  intros V FX FF Nx G Nh R t T. destruct (R t T) as (A & B & C). destruct (known_evo X p p' x b V Nx G Nh) as (_ & Oc & _). split; [|split].
  - intros e Ex Nc. apply (led_evo X F F' p p'); auto.
  - intros K Q. destruct (B K Q) as (l & y & L & D0 & O & Fr). exists l, y. split; auto. split; [|split; [now apply (ev_kind _ _ _ V)|exact (from_stays _ _ _ _ (ev_stays _ _ _ V) Fr)]].
    unfold get_dt in *. destruct (nth_error (H_ p) l) as [[]|] eqn:N; try discriminate. injection D0 as ->. now rewrite (ev_dt _ _ _ V _ _ N).
  - intros K. destruct (C K) as (y & l & L & O). exists y, l. split; [|now apply (ev_kind _ _ _ V)]. revert L. apply keeps_slice, Oc. constructor.
Qed.

Lemma evo_local (X : addr -> Prop) p p' (F : addr -> Prop) (R : rel) v name loc x : evo X p p' -> (forall z, F z -> ~ X z) ->
  (forall v n l x, rt F p v n l x -> R v n l x) -> (forall v n l x, rt (span (len p) (len p')) p' v n l x -> R v n l x) ->
  rt F p v name loc x -> local_with E route (with_new F p p') p' R v name loc x.
Proof.
  intros V FX R1 R2 S. destruct (st_with_unfold _ _ _ _ _ _ _ _ S) as (b & G & Do & Pa & [Fx Fo] & Sh).
  assert (An : annots p p') by (apply annots_app; exact (ev_exts _ _ _ V)).
  assert (C : carries (rt F p) R p p').
  { intros v0 n0 l0 y H. split; auto. intros xb Gy. destruct (ev_old _ _ _ V y xb (FX _ (proj1 (st_with_foot _ _ _ _ _ _ _ _ H))) Gy) as [(A & _)|(_ & _ & b' & sh & M & _)].
    - eauto.
    - exists b'. split; [exact (md_base _ _ _ _ _ _ _ _ M)|]. exact (sd_required _ _ (md_doc _ _ _ _ _ _ _ _ M)). }
  destruct (ev_old _ _ _ V x b (FX x Fx) G) as [(G' & Oc & Ff)|(Un & _ & b' & sh & M & Or & Ot & Le)].
  - assert (Pr : forall a m, owns b a -> get_props (H_ p) a = Some m -> get_props (H_ p') a = Some m).
    { intros a m O. apply keeps_props, Oc, O. }
    assert (Fc : forall m, get_facets (H_ p) (b_facets b) = Some m -> get_facets (H_ p') (b_facets b) = Some m).
    { intros m. apply keeps_facets, Oc. constructor. }
    exists b. split; auto. split; [|split; [|split; [split; [now left|intros c O; left; auto]|]]].
    + eapply documented_move; [exact C|exact An|apply same_doc_refl| |exact Do]. intros m. apply Pr. constructor.
    + eapply parents_move; [exact C| |intros _; split; [reflexivity|split; [reflexivity|]]|exact Pa]; [intros l t _ _|]; apply keeps_slice, Oc; constructor.
    + destruct Sh as [(Nh & Sh & Dv)|Pe]; [left|right].
      * split; auto. split; [|intros Vv; apply (route_evo X F (with_new F p p') p p' v loc x b); auto; unfold with_new; auto]. intros Nw. destruct (Sh Nw) as (Kr & sh & Qs & Ns & Kn & Sr). split; auto. exists sh. split; auto. split; auto. split; auto.
        refine (shape_read_move E _ R p p' _ _ _ _ b b sh C (fun i => i) eq_refl Fc _ Sr).
        intros a m Bx. apply Pr. eapply boxes_own; eauto.
      * destruct Pe as [P1 P2 P3 P4 P5 P6 P7 P8]. split; auto; [rewrite Ff; exact P2| |intros t T K Q; destruct (P8 t T K Q) as (l & Lk & Fr); exists l; split; auto; exact (from_stays _ _ _ _ (ev_stays _ _ _ V) Fr)]. intros t T. destruct (P6 t T) as (A & B & Gl). split; auto. split; auto.
        revert Gl. apply keeps_slice, Oc. constructor.
  - destruct Sh as [(Nh & _)|Pe]; [destruct Nh; now right|]. destruct Pe as [P1 P2 P3 P4 P5 P6 P7 P8].
    destruct M as [Gb (Sb & Ns & Kn) Dc (Cf & Ci & Cl) Mf Mi Bx Rd].
    exists b'. split; auto. split; [|split; [|split; [split; [now left|]|]]].
    + eapply documented_move; [exact C|exact An|exact Dc| |exact Do]. intros m. now apply keeps_props.
    + eapply parents_move; [exact C| |intros B; destruct (vague_not _ P4 B)|exact Pa]. intros l t T K. rewrite Ci. apply keeps_slice, Mi.
      unfold notext. destruct (b_link b) as [k|] eqn:Lk; [left; discriminate|right].
      destruct (string_dec (b_type b) "composite") as [|N]; auto. destruct (P5 eq_refl N) as [(t' & T' & K' & _) _]. congruence.
    + intros c O. destruct O as [| | |f m S0 Q|f m S0 Q|sl e S0].
      * left. rewrite Cf. apply Fo. constructor.
      * left. rewrite (sd_fdefs _ _ Dc). apply Fo. constructor.
      * left. rewrite Ci. apply Fo. constructor.
      * right. apply Bx. rewrite Sb in S0. injection S0 as ->. cbn. auto.
      * right. apply Bx. rewrite Sb in S0. injection S0 as ->. cbn. auto.
      * right. apply Bx. rewrite Sb in S0. injection S0 as ->. cbn. auto.
    + left. split; [eapply hollow_not; eauto|]. assert (Lo : b_loc b = loc) by exact (dc_loc _ _ _ _ _ _ _ Do). split.
      2:{ intros _ t T. split; [|split].
        - intros e (K1 & K2 & K3 & K4 & K5 & K6) Nc. destruct (P6 (y_value t)) as (A & B & Gl); [exists t; auto|].
          assert (Te : text_expr b = Some e) by (unfold text_expr; rewrite A, B; apply String.eqb_neq in Nc; now rewrite Nc).
          specialize (Le Gl e Te). rewrite Lo, P2 in Le. unfold bare_type.
          eapply led_wide; [|destruct (y_kind v); exact Le]. unfold with_new. auto.
        - intros K Q. pose proof (proj1 (P7 t T) K ltac:(congruence)) as Nl. destruct (Ot (or_introl Nl)) as (y & Oy & Ky).
          unfold origin in Oy. rewrite Cl. destruct (P8 t T K Q) as (l0 & Lk & Fr). rewrite Lk in Oy |- *. exists l0, y. split; auto. split; auto. split; auto.
          rewrite <- Lo. exact (from_stays _ _ _ _ (ev_stays _ _ _ V) Fr).
        - intros K. destruct (proj2 (P7 t T) K) as [Lk Co]. destruct (Ot (or_intror Co)) as (y & Oy & Ky).
          unfold origin in Oy. rewrite Lk, Co in Oy. cbn in Oy. destruct Oy as (l & Gl). exists y, l. split; auto. now rewrite Ci. }
      intros Nw. split; [now apply vague_kind|]. exists sh. split; auto. split; auto. split; auto.
      rewrite <- Lo.
      assert (Ef : eff (lossy b) (facets_of x (p_facets p)) = own_facets v).
      { rewrite P2. unfold own_facets, entries in *. destruct (y_kind v) eqn:K; try reflexivity. cbn [eff]. destruct (lossy b) eqn:L; auto.
        assert (T : b_link b = None /\ b_type b <> "composite").
        { unfold lossy, text_expr in L. destruct (b_link b); [discriminate|]. split; auto. intros Q. rewrite Q in L. discriminate. }
        destruct (P5 (proj1 T) (proj2 T)) as [T1 T2]. destruct (text_lossy v b T1 T2 L) as [Q|Q]; [|contradiction].
        unfold own_facets, entries in Q. rewrite K in Q. now rewrite Q. }
      specialize (Rd P3). rewrite Ef in Rd.
      assert (C2 : carries (rt (span (len p) (len p')) p') R p' p') by (intros v0 n0 l0 y H; split; eauto).
      refine (shape_read_move E _ R p' p' _ _ _ _ b' b' sh C2 _ eq_refl (fun _ g => g) (fun _ _ _ g => g) Rd).
      intros Na. destruct (arr b) eqn:Ar; auto. destruct Na.
      assert (T : b_link b = None /\ b_type b <> "composite").
      { unfold arr, text_expr in Ar. destruct (b_link b); [discriminate|]. split; auto. intros Q. rewrite Q in Ar. discriminate. }
      destruct (P5 (proj1 T) (proj2 T)) as [T1 T2]. exact (text_arr v b T1 T2 Ar).
Qed.

Lemma evo_carries (X : addr -> Prop) p p' (F : addr -> Prop) : evo X p p' -> (forall z, F z -> ~ X z) -> carries (rt F p) (rt (with_new F p p') p') p p'.
Proof.
  intros V FX v name loc x S. split.
  - set (R := fun v n l x => rt F p v n l x \/ rt (span (len p) (len p')) p' v n l x).
    exists R. split; [now left|]. intros v0 n0 l0 y [H|H].
    + apply (evo_local X p p' F R); auto; unfold R; auto.
    + apply st_with_unfold in H. apply (local_with_mono E route (with_new F p p') p' (rt (span (len p) (len p')) p')); [unfold R; auto|].
      revert H. apply local_with_wide; [unfold with_new; auto|]. intros v1 l1 z bz. apply route_wide. unfold with_new. auto.
  - intros xb Gy. destruct (ev_old _ _ _ V x xb (FX _ (proj1 (st_with_foot _ _ _ _ _ _ _ _ S))) Gy) as [(A & _)|(_ & _ & b' & sh & M & _)].
    + eauto.
    + exists b'. split; [exact (md_base _ _ _ _ _ _ _ _ M)|]. exact (sd_required _ _ (md_doc _ _ _ _ _ _ _ _ M)).
Qed.

(** From a footprint that begins at [n]. *)
Lemma evo_span (X : addr -> Prop) n p p' : evo X p p' -> n <= len p -> (forall z, X z -> z < n) ->
  carries (rt (span n (len p)) p) (rt (span n (len p')) p') p p'.
Proof.
  intros V Ln XL v name loc x S. pose proof (ev_len _ _ _ V) as Le.
  destruct (evo_carries X p p' (span n (len p)) V) with (v := v) (name := name) (loc := loc) (x := x) as [A B]; auto.
  - intros z [L _] Xz. specialize (XL z Xz). lia.
  - split; auto. eapply rt_wide; [|exact A]. unfold with_new, span. lia.
Qed.

Lemma made_evo (X : addr -> Prop) p p1 p2 x b fs it b' sh : evo X p1 p2 -> len p <= len p1 -> (forall z, X z -> z < len p) -> ~ X x ->
  made p p1 x b fs it b' sh -> made p p2 x b fs it b' sh.
Proof.
  intros V Ln XL Nx M. pose proof (ev_len _ _ _ V) as Le. destruct M as [Gb (Sb & Ns & Kn) Dc (Cf & Ci & Cl) Mf Mi Bx Rd].
  destruct (ev_old _ _ _ V x b' Nx Gb) as [(G' & Oc & Ff)|(Un & _)]; [|congruence].
  assert (Od : owns b' (b_fdefs b)) by (rewrite <- (sd_fdefs _ _ Dc); constructor).
  assert (Oi : owns b' (b_inherits b)) by (rewrite <- Ci; constructor).
  split; auto.
  - eapply keeps_trans; eauto.
  - intros N. eapply keeps_trans; eauto.
  - intros z Hz. specialize (Bx z Hz). lia.
  - intros Ge. specialize (Rd Ge).
    refine (shape_read_move E _ _ p1 p2 _ _ _ _ b' b' sh (evo_span X (len p) p1 p2 V Ln XL) (fun i => i) eq_refl _ _ Rd).
    + intros m. apply keeps_facets, Oc. constructor.
    + intros a m Ba. apply keeps_props, Oc. eapply boxes_own; eauto.
Qed.

Lemma origin_kept X p p' b y : evo X p p' -> (b_link b = None -> b_type b = "composite" -> keeps p p' (b_inherits b)) -> origin p b y -> origin p' b y.
Proof.
  intros V Oc. unfold origin. destruct (b_link b) as [l|].
  - unfold get_dt. destruct (nth_error (H_ p) l) as [[]|] eqn:N; try discriminate. intros Q. injection Q as ->. now rewrite (ev_dt _ _ _ V _ _ N).
  - destruct (String.eqb (b_type b) "composite") eqn:Co.
    + intros (l & G). exists l. revert G. apply String.eqb_eq in Co. now apply keeps_slice, Oc.
    + intros (e & nm & A & B & C). exists e, nm. split; auto. split; auto. eapply ref_type_grown; [exact (ev_grown _ _ _ V)|exact C].
Qed.
Lemma origin_evo X p p' x b y : evo X p p' -> same_at p p' x b -> origin p b y -> origin p' b y.
Proof. intros V (_ & Oc & _). apply (origin_kept X p p'); auto. intros _ _. apply Oc. constructor. Qed.

Lemma same_trans p1 p2 p3 x b : same_at p1 p2 x b -> same_at p2 p3 x b -> same_at p1 p3 x b.
Proof.
  intros (A & B & C) (A' & B' & C'). split; auto. split; [|congruence]. intros c O. eapply keeps_trans; eauto.
Qed.

(** Nothing happened to the type before. *)
Lemma made_after p1 p2 p3 x b fs it b' sh : len p1 <= len p2 -> same_at p1 p2 x b -> made p2 p3 x b fs it b' sh -> made p1 p3 x b fs it b' sh.
Proof.
  intros Ln (G & Oc & Ff) [Gb Sb Dc Cb Mf Mi Bx Rd]. split; auto.
  - eapply keeps_trans; [apply Oc; constructor|exact Mf].
  - intros N. eapply keeps_trans; [apply Oc; constructor|exact (Mi N)].
  - intros z Hz. specialize (Bx z Hz). lia.
  - intros Ge. assert (Ge2 : get_facets (H_ p2) (b_facets b) = Some []) by (revert Ge; apply keeps_facets, Oc; constructor).
    specialize (Rd Ge2).
    assert (C2 : carries (rt (span (len p2) (len p3)) p3) (rt (span (len p1) (len p3)) p3) p3 p3).
    { intros v0 n0 l0 y H. split; [|eauto]. eapply rt_wide; [|exact H]. unfold span. lia. }
    exact (shape_read_move E _ _ p3 p3 _ _ _ _ b' b' sh C2 (fun i => i) eq_refl (fun _ g => g) (fun _ _ _ g => g) Rd).
Qed.

Lemma evo_trans (X X' : addr -> Prop) p1 p2 p3 : evo X p1 p2 -> evo X' p2 p3 -> (forall z, X' z -> X z /\ z < len p1) -> evo X p1 p3.
Proof.
  intros V W XX. pose proof (ev_len _ _ _ V) as L1. pose proof (ev_len _ _ _ W) as L2.
  assert (XL : forall z, X' z -> z < len p1) by (intros z Hz; now apply XX).
  split; [lia| | | | | | |eapply stays_trans; [exact (ev_stays _ _ _ V)|exact (ev_stays _ _ _ W)]].
  - intros x b Nx G. assert (Nx' : ~ X' x) by (intros Q; now apply Nx, XX).
    destruct (ev_old _ _ _ V x b Nx G) as [S|(Un & Re & b' & sh & M & Or & Ot & Le)].
    + pose proof S as (G2 & Oc & Ff). destruct (ev_old _ _ _ W x b Nx' G2) as [S'|(Un & Re & b' & sh & M & Or & Ot & Le)]; [left; eapply same_trans; eauto|].
      right. split; auto. split; auto. exists b', sh. rewrite <- Ff. split; [eapply made_after; eauto|].
      split; [intros y Oy; apply Or; eapply origin_evo; eauto|]. split; auto.
      intros Gl e Te. eapply led_wide; [|apply (Le (keeps_slice _ _ _ _ (Oc _ (ow_inherits b)) Gl) e Te)]. unfold span. lia.
    + pose proof M as [Gb (Sb & Ns & Kn) Dc (Cf & Ci & Cl) Mf Mi Bx Rd].
      destruct (known_evo X' p2 p3 x b' W Nx' Gb (hollow_not _ _ Sb Ns)) as (_ & Oc & _).
      right. split; auto. split; auto. exists b', sh. split; [eapply made_evo; eauto|]. split; [intros y Oy; apply (ev_kind _ _ _ W); auto|]. split.
      * intros N. destruct (Ot N) as (y & Oy & Ky). exists y. split; [|now apply (ev_kind _ _ _ W)]. apply (origin_kept X' p2 p3); auto.
        intros _ _. rewrite <- Ci. apply Oc. constructor.
      * intros Gl e Te. apply (led_evo X' (span (len p1) (len p2)) (span (len p1) (len p3)) p2 p3); auto; unfold span; [|lia]. intros z Hz Xz. apply XL in Xz. lia.
  - intros x t K. apply (ev_kind _ _ _ W). now apply (ev_kind _ _ _ V).
  - intros l o N. apply (ev_dt _ _ _ W). now apply (ev_dt _ _ _ V).
  - destruct (ev_exts _ _ _ V) as [l Q]. destruct (ev_exts _ _ _ W) as [l' Q']. exists (l ++ l'). now rewrite Q', Q, app_assoc.
  - eapply grown_trans; [exact (ev_grown _ _ _ V)|exact (ev_grown _ _ _ W)].
  - intros path f O. destruct (ev_new _ _ _ W _ _ O) as [O'|(text & So & Fs)].
    + destruct (ev_new _ _ _ V _ _ O') as [|(text & So & Fs)]; auto. right. exists text. split; auto.
      eapply frag_by_move; [|exact (evo_libs _ _ _ W)|exact Fs]. exact (evo_span X' (len p1) p2 p3 W L1 XL).
    + right. exists text. split; auto. eapply frag_by_move; [|apply same_libs_refl|exact Fs].
      intros v0 n0 l0 y H. split; [|eauto]. eapply rt_wide; [|exact H]. unfold span. lia.
Qed.

(** New cells, then types among them are under construction. *)
Lemma evo_app_then (X : addr -> Prop) p1 p2 p3 : app p1 p2 -> near p1 p2 -> evo X p2 p3 -> (forall z, X z -> len p1 <= z) -> evo none p1 p3.
Proof.
  intros A Ne W XL. pose proof (app_len _ _ A) as L1. pose proof (ev_len _ _ _ W) as L2.
  assert (Ke : forall c, keeps p1 p2 c).
  { intros c x N. rewrite (e_cells _ _ _ _ A); [exact N|eapply nth_error_lt; eauto|intros []]. }
  assert (Sa : forall x b, get_base (H_ p1) x = Some b -> same_at p1 p2 x b).
  { intros x b G. split; [eapply app_base; eauto|]. split; auto. apply (e_fnodes _ _ _ _ A); [exact (base_lt _ _ _ G)|intros []]. }
  split; [lia| | | | | | |eapply stays_trans; [exact (e_stays _ _ _ _ A)|exact (ev_stays _ _ _ W)]].
  - intros x b _ G. pose proof (Sa x b G) as S. assert (Nx : ~ X x) by (intros Q; apply XL in Q; pose proof (base_lt _ _ _ G); unfold len in *; lia).
    destruct (ev_old _ _ _ W x b Nx (proj1 S)) as [S'|(Un & Re & b' & sh & M & Or & Ot & Le)]; [left; eapply same_trans; eauto|].
    right. split; auto. split; auto. exists b', sh. rewrite <- (proj2 (proj2 S)). split; [eapply made_after; eauto|].
    split; [|split; [exact Ot|intros Gl e Te; eapply led_wide; [|apply (Le (keeps_slice _ _ _ _ (Ke _) Gl) e Te)]; unfold span; lia]].
    intros y Oy. apply Or. unfold origin in *. destruct (b_link b) as [l|].
    + revert Oy. unfold get_dt. destruct (nth_error (H_ p1) l) as [c|] eqn:N; [|discriminate]. now rewrite (Ke _ _ N).
    + destruct (String.eqb (b_type b) "composite").
      * destruct Oy as (l & Gl). exists l. revert Gl. apply keeps_slice, Ke.
      * destruct Oy as (e & nm & Q1 & Q2 & Q3). exists e, nm. split; auto. split; auto. apply (ref_type_grown p1 p2); [now apply grown_near|exact Q3].
  - intros x t (b & G & H & T). apply (ev_kind _ _ _ W). exists b. split; auto. now apply Sa.
  - intros l o N. apply (ev_dt _ _ _ W). now apply Ke.
  - destruct (e_exts _ _ _ _ A) as [l Q]. destruct (ev_exts _ _ _ W) as [l' Q']. exists (l ++ l'). now rewrite Q', Q, app_assoc.
  - apply (grown_trans p1 p2 p3); [now apply grown_near|exact (ev_grown _ _ _ W)].
  - intros path f O. destruct (ev_new _ _ _ W _ _ O) as [O'|(text & So & Fs)].
    + left. destruct Ne as (_ & Q & _). now rewrite <- Q.
    + right. exists text. split; auto. eapply frag_by_move; [|apply same_libs_refl|exact Fs].
      intros v0 n0 l0 y H. split; [|eauto]. eapply rt_wide; [|exact H]. unfold span. lia.
Qed.

(** ** A type under construction is changed *)

Lemma owns_sort h b c : base_ok h b -> owns b c -> exists x, nth_error h c = Some x /\ sort_of x <> TBase /\ sort_of x <> TDT.
Proof.
  intros K O. assert (X : has h c TFacets \/ has h c TProps \/ has h c TSlice).
  { destruct O as [| | |f m S Q|f m S Q|sl e S].
    - left. exact (k_facets _ _ K).
    - right. left. exact (k_fdefs _ _ K).
    - right. right. exact (k_inherits _ _ K).
    - right. left. exact (proj1 (k_shape _ _ K _ S) _ Q).
    - right. left. exact (proj2 (k_shape _ _ K _ S) _ Q).
    - right. right. exact (k_shape _ _ K _ S). }
  destruct X as [(x & N & S)|[(x & N & S)|(x & N & S)]]; exists x; rewrite S; repeat split; auto; discriminate.
Qed.

Lemma evo_edit U p p' a b : fine U p -> get_base (H_ p) a = Some b -> edit (body a b) (len p) p p' ->
  (forall t, kindof p a t -> kindof p' a t) -> grown p p' ->
  (forall path f, oget path (p_frags p') = Some f -> oget path (p_frags p) = Some f
     \/ exists text, source path text /\ frag_by E (rt (span (len p) (len p')) p') p' path text f) ->
  evo (eq a) p p'.
Proof.
  intros F G Ed Kd Gr Nw. pose proof (base_ok_at _ _ _ _ F G) as K.
  assert (Nb : forall x bx, get_base (H_ p) x = Some bx -> a <> x -> nth_error (H_ p') x = nth_error (H_ p) x /\ facets_of x (p_facets p') = facets_of x (p_facets p)).
  { intros x bx Gx N. assert (Nx : ~ body a b x).
    { intros [->|O]; [now apply N|]. destruct (owns_sort _ _ _ K O) as (c & Nc & S & _). apply get_base_nth in Gx. rewrite Gx in Nc. injection Nc as <-. now apply S. }
    split; [apply (e_cells _ _ _ _ Ed)|apply (e_fnodes _ _ _ _ Ed)]; auto; exact (base_lt _ _ _ Gx). }
  split; auto.
  - exact (e_len _ _ _ _ Ed).
  - intros x bx N Gx. left. destruct (Nb x bx Gx N) as [Q1 Q2]. split; [rewrite <- Gx; now apply get_base_same|]. split; auto.
    intros c O. apply keeps_same. destruct (owns_sort _ _ _ (base_ok_at _ _ _ _ F Gx) O) as (y & Ny & S & _).
    apply (e_cells _ _ _ _ Ed); [eapply nth_error_lt; eauto|]. intros [->|O'].
    + apply get_base_nth in G. rewrite G in Ny. injection Ny as <-. now apply S.
    + apply N. exact (g_own _ _ (f_heap _ _ F) a b x bx c G Gx O' O).
  - intros x t Kx. destruct (Nat.eq_dec a x) as [<-|N]; auto. destruct Kx as (bx & Gx & H). exists bx. split; auto.
    rewrite <- Gx. apply get_base_same. now apply (Nb x bx).
  - intros l o N. rewrite <- N. apply (e_cells _ _ _ _ Ed); [eapply nth_error_lt; eauto|]. intros [->|O].
    + apply get_base_nth in G. congruence.
    + destruct (owns_sort _ _ _ K O) as (y & Ny & _ & S). rewrite N in Ny. injection Ny as <-. now apply S.
  - exact (e_exts _ _ _ _ Ed).
  - exact (e_stays _ _ _ _ Ed).
Qed.

(** The files that are parsed meanwhile. *)
Lemma framed_new a p p' : a < len p -> (forall b c, get_base (H_ p) a = Some b -> owns b c -> c < len p) ->
  framed E text0 path0 (fun path => oget path (p_frags p) <> None) a p p' -> grown p p' ->
  forall path f, oget path (p_frags p') = Some f -> oget path (p_frags p) = Some f
     \/ exists text, source path text /\ frag_by E (rt (span (len p) (len p')) p') p' path text f.
Proof.
  intros La Ow [Le Fr] Gr path f O.
  assert (Hd : held E text0 path0 (fun path => oget path (p_frags p) <> None) a none p).
  { split; [|split; [auto|intros []]|intros b c G Oc; split; [eauto|intros []]]. split; [intros z []|].
    intros path' f' O'. left. congruence. }
  destruct (Fr none Hd) as (Z' & [[Lt Sa] _ _] & _ & W2). destruct (oget path (p_frags p)) as [g|] eqn:Og.
  - left. rewrite (gr_frags _ _ Gr _ _ Og) in O. exact O.
  - right. destruct (Sa path f O) as [Q|(text & So & Fs)]; [congruence|]. exists text. split; auto.
    eapply frag_by_move; [|apply same_libs_refl|exact Fs]. intros v n l x S. split; [|eauto]. eapply st_rt; [|exact S].
    intros z Hz. split; [|now apply Lt]. destruct (W2 z Hz) as [[]|]; auto.
Qed.

Section Steps.
Variable m1 : nat.
Notation conc := (concrete_yaml E (parse_dt E m1) (parse_ne E)).

Lemma conc_step U a t fs p u p' b : fine U p -> get_base (H_ p) a = Some b -> conc a t fs p = (Ok u, p') ->
  (forall t0, kindof p a t0 -> t0 = t /\ builtin t = true) ->
  exists m0 sh, get_facets (H_ p) (b_facets b) = Some m0 /\ kinded E m0 (len p) a b (b_loc b) t fs p p' sh /\ evo (eq a) p p'.
Proof.
  intros F G H Kd. pose proof (base_ok_at _ _ _ _ F G) as K. unfold concrete_yaml in H.
  apply dbind_inv in H. destruct H as (b0 & p1 & H1 & H). apply rd_step in H1. destruct H1 as [-> G0]. rewrite G in G0. injection G0 as <-.
  destruct (k_facets _ _ K) as (c & Nc & Sc). destruct c as [| |m0| |]; try discriminate. apply get_facets_nth in Nc.
  assert (Lt : forall t c, has (H_ p) c t -> c < len p) by (intros t0 c (x & N & _); eapply nth_error_lt; eauto).
  set (X := fun path => oget path (p_frags p) <> None).
  destruct (parse_adds E text0 path0 X m1) as [Pd _].
  assert (Pn : forall path q v q', parse_ne E path q = (Ok v, q') -> adds E text0 path0 X q q') by (intros ? ? ? ?; apply parse_ne_adds).
  assert (Sy : forall v name loc q x q', shape_yaml E (parse_dt E m1) (parse_ne E) v name loc q = (Ok x, q') ->
    adds E text0 path0 X q q' /\ st E (span (len q) (len q')) q' v name loc x).
  { intros v name loc q x q'. exact (shape_adds E text0 path0 X _ _ Pd Pn v name loc q x q'). }
  assert (R1 : forall v name loc q x q', shape_yaml E (parse_dt E m1) (parse_ne E) v name loc q = (Ok x, q') ->
    app q q' /\ st E (span (len q) (len q')) q' v name loc x).
  { intros v name loc q x q' Hq. destruct (Sy _ _ _ _ _ _ Hq) as [A B]. split; auto. apply A. }
  assert (R2 : forall v name loc q x q', shape_yaml E (parse_dt E m1) (parse_ne E) v name loc q = (Ok x, q') ->
    app q q' /\ loads E text0 path0 X q q').
  { intros v name loc q x q' Hq. destruct (Sy _ _ _ _ _ _ Hq) as [A B]. split; apply A. }
  destruct (concrete_read E (fun v => shape_yaml E (parse_dt E m1) (parse_ne E) v) R1 m0 a (b_loc b) t fs p u p' b G Nc
    (Lt _ _ (k_fdefs _ _ K)) (Lt _ _ (k_inherits _ _ K)) H) as (sh & Kn).
  exists m0, sh. split; auto. split; auto.
  assert (Gr : grown p p').
  { refine (al_concrete grown (close_near grown grown_near) grown_trans E (parse_dt E m1) (fun v => shape_yaml E (parse_dt E m1) (parse_ne E) v) (b_loc b) (fun _ => True) _ a t fs _ p u p' H); auto.
    intros v name _ q x q' Hq. destruct (Sy _ _ _ _ _ _ Hq) as [A _]. apply A. }
  assert (Fr : framed E text0 path0 X a p p') by exact (walks_concrete E text0 path0 X _ R2 a (b_loc b) t fs p u p' H).
  apply (evo_edit U p p' a b); auto.
  - eapply edit_weak; [apply Nat.le_refl| |exact (kd_edit _ _ _ _ _ _ _ _ _ _ _ Kn)]. intros z _ [-> | ->]; [now left|right; constructor].
  - intros t0 Kt. destruct (Kd t0 Kt) as [-> Bt]. exists (set_shape (Some sh) (set_type t b)). split; [exact (kd_base _ _ _ _ _ _ _ _ _ _ _ Kn)|].
    split; [|reflexivity]. destruct (kd_shape _ _ _ _ _ _ _ _ _ _ _ Kn) as [(_ & Q & _)|(Ns & _)]; [congruence|]. now apply (hollow_not _ sh).
  - apply (framed_new a); auto; [exact (base_lt _ _ _ G)|]. intros b1 c1 G1 O1. rewrite G in G1. injection G1 as <-.
    destruct (owns_sort _ _ _ K O1) as (x & N & _). eapply nth_error_lt; eauto.
Qed.

Lemma custom_kind sh sh' fs : kind_name sh = kind_name sh' -> custom_of sh fs = custom_of sh' fs.
Proof. destruct sh, sh'; cbn; intros Q; try discriminate; reflexivity. Qed.

Lemma over_table loc l m0 m : custom_table E loc l m0 -> over E m0 loc l m -> custom_table E loc l m.
Proof. intros T O k. specialize (T k). specialize (O k). destruct (last_of k l); auto. congruence. Qed.

Lemma kinded_inherits U m0 a b loc t fs p p' sh : fine U p -> get_base (H_ p) a = Some b -> get_facets (H_ p) (b_facets b) = Some m0 ->
  kinded E m0 (len p) a b loc t fs p p' sh -> keeps p p' (b_inherits b).
Proof.
  intros F G Gm Kn. apply keeps_same. destruct (k_inherits _ _ (base_ok_at _ _ _ _ F G)) as (x & N & S).
  apply (e_cells _ _ _ _ (kd_edit _ _ _ _ _ _ _ _ _ _ _ Kn)); [eapply nth_error_lt; eauto|]. intros [Q|Q]; rewrite Q in N.
  - apply get_base_nth in G. rewrite G in N. injection N as <-. discriminate.
  - apply get_facets_nth in Gm. rewrite Gm in N. injection N as <-. discriminate.
Qed.

Lemma conc_frame U a t fs p p1 u p2 b : fine U p1 -> evo none p p1 -> get_base (H_ p) a = Some b -> b_shape b = Some SUnknown -> builtin t = true ->
  (forall b1, became p p1 a b -> get_base (H_ p1) a = Some b1 -> b_type b1 = t /\ eff false fs = eff (lossy b) (facets_of a (p_facets p))) ->
  conc a t fs p1 = (Ok u, p2) ->
  evo (eq a) p p2 /\ evo (eq a) p1 p2 /\ keeps p1 p2 (b_inherits b) /\ exists b' sh, made p p2 a b (eff false fs) True b' sh /\ b_type b' = t.
Proof.
  intros F V G Un Bt Be H. pose proof (ev_len _ _ _ V) as L1. pose proof (base_lt _ _ _ G) as La. fold (len p) in La.
  assert (X : exists b1, get_base (H_ p1) a = Some b1 /\ same_doc b b1 /\ (b_facets b1 = b_facets b /\ b_inherits b1 = b_inherits b /\ b_link b1 = b_link b)
    /\ keeps p p1 (b_fdefs b) /\ (notext b -> keeps p p1 (b_inherits b))
    /\ (forall t0, kindof p1 a t0 -> t0 = t /\ builtin t = true)
    /\ (get_facets (H_ p) (b_facets b) = Some [] -> forall m0, get_facets (H_ p1) (b_facets b) = Some m0 ->
         forall sh m, kind_name sh = t -> over E m0 (b_loc b) (custom_of sh (eff false fs)) m -> custom_table E (b_loc b) (custom_of sh (eff false fs)) m)).
  { destruct (ev_old _ _ _ V a b (fun q => q) G) as [(G1 & Oc & Ff)|(_ & Bc)].
    - exists b. split; auto. split; [apply same_doc_refl|]. split; auto. split; [apply Oc; constructor|]. split; [intros _; apply Oc; constructor|]. split.
      + intros t0 (b0 & G0 & Nh & _). rewrite G1 in G0. injection G0 as <-. destruct Nh. now right.
      + intros Ge m0 Gm sh m _. assert (Q : get_facets (H_ p1) (b_facets b) = Some []) by (revert Ge; apply keeps_facets, Oc; constructor).
        rewrite Q in Gm. injection Gm as <-. auto.
    - pose proof Bc as (_ & b1 & sh1 & M & _). destruct (Be b1 Bc (md_base _ _ _ _ _ _ _ _ M)) as [Qt Qf]. exists b1.
      pose proof (made_kind _ _ _ _ _ _ _ _ M) as Mk.
      destruct M as [Gb (Sb & Ns & Kn) Dc (Cf & Ci & Cl) Mf Mi Bx Rd]. split; auto. split; auto. split; auto. split; auto. split; auto. split.
      + intros t0 Kt. split; auto. rewrite <- Qt. eapply kindof_fun; eauto.
      + intros Ge m0 Gm sh m Ks. destruct (Rd Ge) as (_ & (m' & Gm' & T) & _). rewrite Cf in Gm'. change (heap (p_st p1)) with (H_ p1) in Gm'. rewrite Gm in Gm'. injection Gm' as <-.
        rewrite <- Qf in T. rewrite (custom_kind sh sh1) by congruence. now apply over_table. }
  destruct X as (b1 & G1 & Dc & (Cf & Ci & Cl) & Kf & Ki & Kk & Cu).
  destruct (conc_step U a t fs p1 u p2 b1 F G1 H Kk) as (m0 & sh & Gm & Kn & V2).
  pose proof (base_ok_at _ _ _ _ F G1) as K1. pose proof (ev_len _ _ _ V2) as L2.
  split; [|split; [auto|split]].
  - apply (evo_trans (eq a) (eq a) p p1 p2); auto; [|intros z <-; auto]. eapply evo_weak; [|exact V]. intros z [].
  - rewrite <- Ci. exact (kinded_inherits _ _ _ _ _ _ _ _ _ _ F G1 Gm Kn).
  - destruct Kn as [Gb Ed Bx Ks Bk]. destruct Ks as [(_ & Q & _)|(Ns & Kn & Sr)]; [congruence|].
    assert (Kp : forall c ct, has (H_ p1) c ct -> ct <> TBase -> ct <> TFacets -> keeps p1 p2 c).
    { intros c ct (x & N & S) N1 N2. apply keeps_same. apply (e_cells _ _ _ _ Ed); [eapply nth_error_lt; eauto|]. intros [-> | ->].
      - apply get_base_nth in G1. rewrite G1 in N. injection N as <-. now apply N1.
      - apply get_facets_nth in Gm. rewrite Gm in N. injection N as <-. now apply N2. }
    exists (set_shape (Some sh) (set_type t b1)), sh. split; [|reflexivity]. split; auto.
    + destruct Dc as [S1 S2 S3 S4 S5 S6 S7 S8 S9 S10]. split; assumption.
    + eapply keeps_trans; [exact Kf|]. rewrite <- (sd_fdefs _ _ Dc). apply (Kp _ _ (k_fdefs _ _ K1)); discriminate.
    + intros N. eapply keeps_trans; [exact (Ki N)|]. rewrite <- Ci. apply (Kp _ _ (k_inherits _ _ K1)); discriminate.
    + intros z Hz. specialize (Bx z Hz). lia.
    + intros Ge. rewrite Cf in *. specialize (Cu Ge m0 Gm). rewrite (sd_loc _ _ Dc) in Sr.
      assert (C2 : carries (st E (fo (len p1) (body a (set_shape (Some sh) (set_type t b1))) p2) p2) (rt (span (len p) (len p2)) p2) p2 p2).
      { intros v0 n0 l0 y Hy. split; [|eauto]. eapply st_rt; [|exact Hy]. unfold fo, span. lia. }
      assert (Sr' : shape_over E m0 p2 (rt (span (len p) (len p2)) p2) (eff false fs) (b_loc b) True (set_shape (Some sh) (set_type t b1)) sh).
      { exact (shape_over_move E m0 _ _ p2 p2 _ _ _ _ b1 _ sh C2 (fun i => i) eq_refl (fun _ g => g) (fun _ _ _ g => g) Sr). }
      destruct Sr' as (A & (m & Gm2 & Ov) & B). split; auto. split; auto. exists m. split; auto.
Qed.

Lemma became_refl p a b : get_base (H_ p) a = Some b -> b_shape b = Some SUnknown -> ~ became p p a b.
Proof. intros G S (_ & b' & sh & M & _). destruct M as [Gb (Sb & Ns & _)]. congruence. Qed.

(** The kind is given at once. *)
Lemma conc_first U a t fs p u p2 b : fine U p -> get_base (H_ p) a = Some b -> b_shape b = Some SUnknown -> builtin t = true ->
  conc a t fs p = (Ok u, p2) ->
  evo (eq a) p p2 /\ exists b' sh, made p p2 a b (eff false fs) True b' sh /\ b_type b' = t.
Proof.
  intros F G S B H. destruct (conc_frame U a t fs p p u p2 b F (evo_refl none p) G S B) as (V & _ & _ & R); auto.
  intros b1 Bc. now apply became_refl in Bc.
Qed.

Lemma made_it p p' x b fs (it it' : Prop) b' sh : (it' -> it) -> made p p' x b fs it b' sh -> made p p' x b fs it' b' sh.
Proof.
  intros W [Gb Sb Dc Cb Mf Mi Bx Rd]. split; auto. intros Ge.
  assert (C : carries (rt (span (len p) (len p')) p') (rt (span (len p) (len p')) p') p' p') by (intros v0 n0 l0 y Hy; split; eauto).
  exact (shape_read_move E _ _ p' p' _ _ _ _ b' b' sh C W eq_refl (fun _ g => g) (fun _ _ _ g => g) (Rd Ge)).
Qed.

(** The type itself is completed. *)
Lemma made_touch V p p2 p3 a b fs (it it' : Prop) b' sh b3 sh' : fine V p2 -> len p <= len p2 -> a < len p -> b_inherits b < len p -> ~ notext b ->
  made p p2 a b fs it b' sh -> edit (fun z => z = a \/ z = b_inherits b) (len p2) p2 p3 -> near p2 p3 ->
  get_base (H_ p3) a = Some b3 -> same_doc b' b3 -> b_facets b3 = b_facets b' /\ b_inherits b3 = b_inherits b' /\ b_link b3 = b_link b' ->
  b_type b3 = b_type b' -> b_shape b3 = Some sh' /\ sh' <> SUnknown /\ kind_name sh' = kind_name sh ->
  (forall z, boxes sh' z -> len p <= z < len p3) ->
  (forall R, shape_read E p3 R fs (b_loc b) it b3 sh -> shape_read E p3 R fs (b_loc b) it' b3 sh') ->
  made p p3 a b fs it' b3 sh' /\ evo (eq a) p2 p3.
Proof.
  intros F Ln La Li Nt M Ed Ne G3 D3 (Cf3 & Ci3 & Cl3) T3 (S3 & N3 & K3) Bx3 Rd3.
  pose proof (made_kind _ _ _ _ _ _ _ _ M) as Mk. destruct M as [Gb (Sb & Ns & Kn) Dc (Cf & Ci & Cl) Mf Mi Bx Rd].
  pose proof (base_ok_at _ _ _ _ F Gb) as K. pose proof (e_len _ _ _ _ Ed) as Le.
  assert (Ix : exists l, nth_error (H_ p2) (b_inherits b) = Some (CSlice l)).
  { destruct (k_inherits _ _ K) as (c & N & S). rewrite Ci in N. destruct c; try discriminate. eauto. }
  destruct Ix as (li & Ni).
  assert (Kp : forall c x, nth_error (H_ p2) c = Some x -> sort_of x <> TBase -> sort_of x <> TSlice -> keeps p2 p3 c).
  { intros c x N N1 N2. apply keeps_same. apply (e_cells _ _ _ _ Ed); [eapply nth_error_lt; eauto|]. intros [-> | ->].
    - apply get_base_nth in Gb. rewrite Gb in N. injection N as <-. now apply N1.
    - rewrite Ni in N. injection N as <-. now apply N2. }
  assert (V23 : evo (eq a) p2 p3).
  { apply (evo_edit V p2 p3 a b'); auto.
    - eapply edit_weak; [apply Nat.le_refl| |exact Ed]. intros z _ [-> | ->]; [now left|right; rewrite <- Ci; constructor].
    - intros t Kt. rewrite (kindof_fun _ _ _ _ Kt Mk). exists b3. split; auto. split; auto. now apply (hollow_not _ sh').
    - now apply grown_near.
    - intros path f O. left. destruct Ne as (_ & Q & _). now rewrite <- Q. }
  split; auto. split; auto.
  - split; auto. split; auto. congruence.
  - eapply same_doc_trans; eauto.
  - split; [congruence|]. split; congruence.
  - eapply keeps_trans; [exact Mf|]. rewrite <- (sd_fdefs _ _ Dc). destruct (k_fdefs _ _ K) as (x & N & S). apply (Kp _ x N); rewrite S; discriminate.
  - intros N. contradiction.
  - intros Ge. apply Rd3.
    assert (C : carries (rt (span (len p) (len p2)) p2) (rt (span (len p) (len p3)) p3) p2 p3) by (apply (evo_span (eq a)); auto; intros z <-; auto).
    refine (shape_read_move E _ _ p2 p3 _ _ _ _ b' b3 sh C (fun i => i) Cf3 _ _ (Rd Ge)).
    + intros m. apply keeps_facets. destruct (k_facets _ _ K) as (x & N & S). apply (Kp _ x N); rewrite S; discriminate.
    + intros z m Bz Gm. revert Gm. intros Gm. pose proof Gm as Gm'. apply get_props_nth in Gm'. revert Gm. apply keeps_props. apply (Kp _ _ Gm'); discriminate.
Qed.

(** ** Fresh types *)

Lemma make_base_link name loc p a p' : hp (make_base name loc) p = (Ok a, p') -> exists b, get_base (H_ p') a = Some b /\ b_link b = None /\ b_shape b = None
  /\ b_loc b = loc /\ get_slice (H_ p') (b_inherits b) = Some [].
Proof.
  intros H. apply hp_ok in H. destruct H as (s' & H & ->). unfold make_base, gen_id, alloc, put_shape, ret, bind in H. cbn in H. injection H as <- <-.
  unfold H_. cbn. eexists. split; [apply get_base_nth; rewrite nth_error_app2 by lia; rewrite Nat.sub_diag; reflexivity|].
  split; [reflexivity|]. split; [reflexivity|]. split; [reflexivity|]. cbn [b_inherits]. apply get_slice_nth.
  rewrite nth_error_app1 by (rewrite !app_length; cbn [List.length]; lia). rewrite nth_error_app2 by lia. rewrite Nat.sub_diag. reflexivity.
Qed.

Lemma fresh_evo U name loc (f : addr -> D unit) (P : (addr -> Prop) -> pst -> string -> addr -> Prop) p x p' :
  (forall (F F' : addr -> Prop) q loc y, (forall z, F z -> F' z) -> P F q loc y -> P F' q loc y) ->
  (forall V q u q' b, fine V q -> get_base (H_ q) x = Some b -> b_shape b = Some SUnknown -> b_link b = None -> b_type b = "" ->
     get_slice (H_ q) (b_inherits b) = Some [] -> f x q = (Ok u, q') -> evo (eq x) q q' /\ P (span (len q) (len q')) q' (b_loc b) x) ->
  fine U p -> (a <- fresh_shape conc name "" loc ;; f a ;;; dret a)%D p = (Ok x, p') ->
  evo none p p' /\ span (len p) (len p') x /\ P (span (len p) (len p')) p' loc x.
Proof.
  intros Pw Sf F H. apply dbind_inv in H. destruct H as (a & p1 & H1 & H). unfold fresh_shape in H1. apply dbind_inv in H1. destruct H1 as (a' & q & H0 & H1).
  destruct (step_make _ _ _ _ _ _ F H0) as (N & F0 & W0 & L). apply dbind_inv in H1. destruct H1 as (u1 & q1 & H1 & H2). apply dret_inv in H2. destruct H2 as [-> ->].
  apply dbind_inv in H. destruct H as (u2 & q2 & H2 & H). apply dret_inv in H. destruct H as [-> ->].
  assert (Va : plus U a' a') by (right; reflexivity).
  destruct (conc_open E m1 (plus U a') a' "" None _ _ _ eq_refl Va F0 H1) as (F1 & W1).
  destruct (make_base_read E _ _ _ _ _ H0) as [A0 _]. destruct (make_base_link _ _ _ _ _ H0) as (b0 & G0 & Lk & Sh & Lo & Gi).
  destruct (conc_step (plus U a') a' "" None q u1 q1 b0 F0 G0 H1) as (m0 & sh & Gm & Kn & V1).
  { intros t0 (b1 & G1 & Nh & _). rewrite G0 in G1. injection G1 as <-. destruct Nh. now left. }
  pose proof (kd_base _ _ _ _ _ _ _ _ _ _ _ Kn) as G1.
  assert (Su : sh = SUnknown).
  { destruct (kd_shape _ _ _ _ _ _ _ _ _ _ _ Kn) as [(Q & _)|(Ns & _)]; auto.
    pose proof (k_kind _ _ (base_ok_at _ _ _ _ F1 G1) sh eq_refl Ns) as Q. discriminate. }
  subst sh. pose proof (keeps_slice _ _ _ _ (kinded_inherits _ _ _ _ _ _ _ _ _ _ F0 G0 Gm Kn) Gi) as Gi1.
  destruct (Sf _ _ _ _ _ F1 G1 eq_refl Lk eq_refl Gi1 H2) as [V2 P2].
  pose proof (app_len _ _ A0) as L0. pose proof (ev_len _ _ _ V1) as L1. pose proof (ev_len _ _ _ V2) as L2. pose proof (base_lt _ _ _ G1) as La. fold (len q1) in La.
  split; [|split; [unfold span, len in *; lia|]].
  - apply (evo_app_then (eq a') p q q2); auto.
    + exact (near_hp _ _ _ _ H0).
    + apply (evo_trans (eq a') (eq a') q q1 q2); auto. intros z <-. split; auto. exact (base_lt _ _ _ G0).
    + intros z <-. exact L.
  - cbn in P2. rewrite Lo in P2. eapply Pw; [|exact P2]. unfold span. lia.
Qed.

Lemma fresh_known_evo U name t loc p x p' : fine U p -> builtin t = true -> fresh_shape conc name t loc p = (Ok x, p') -> evo none p p' /\ kindof p' x t.
Proof.
  intros F Bt H1. unfold fresh_shape in H1. apply dbind_inv in H1. destruct H1 as (a & q & H0 & H1).
  destruct (step_make _ _ _ _ _ _ F H0) as (N & F0 & W0 & L). apply dbind_inv in H1. destruct H1 as (u1 & q1 & H1 & H2). apply dret_inv in H2. destruct H2 as [-> ->].
  destruct (make_base_read E _ _ _ _ _ H0) as [A0 _]. destruct (make_base_link _ _ _ _ _ H0) as (b0 & G0 & Lk & Sh & _).
  destruct (conc_step (plus U a) a t None q u1 q1 b0 F0 G0 H1) as (m0 & sh & _ & Kn & V1).
  { intros t0 (b1 & G1 & Nh & _). rewrite G0 in G1. injection G1 as <-. destruct Nh. now left. }
  split.
  - apply (evo_app_then (eq a) p q q1); auto; [exact (near_hp _ _ _ _ H0)|]. intros z <-. exact L.
  - eexists. split; [exact (kd_base _ _ _ _ _ _ _ _ _ _ _ Kn)|]. split; [|reflexivity].
    destruct (kd_shape _ _ _ _ _ _ _ _ _ _ _ Kn) as [(_ & Q & _)|(Ns & _)]; [congruence|]. now apply (hollow_not _ sh).
Qed.

(** ** Expressions *)

Variable rec : addr -> D unit.
Hypothesis Rec : forall U a, settles U a (rec a).
Hypothesis RecE : forall U a p u p', fine U p -> rec a p = (Ok u, p') -> evo none p p'.

Definition apt (p : pst) (a : addr) (b : base) (fs : option fnodes) (e : expr) : Prop :=
  b_link b = None /\ (b_type b = "" \/ (b_type b <> "composite" /\ fs = facets_of a (p_facets p)
    /\ exists e0, read_type (b_type b) = Some e0 /\ named_in e0 = named_in e)).
Definition sees (p p' : pst) (a : addr) (b : base) (fs : option fnodes) (e : expr) : Prop :=
  evo (eq a) p p' /\ exists b' sh, made p p' a b (eff (just_prim e) fs) (just_array e = false) b' sh
    /\ (forall nm y, named_in e = Some nm -> ref_type p nm (b_loc b) = Ok y -> kindof p' y (b_type b'))
    /\ (get_slice (H_ p) (b_inherits b) = Some [] -> led (span (len p) (len p')) p' (b_loc b) e (isnone fs) a).
Definition seen (e : expr) (m : addr -> option fnodes -> D unit) : Prop := forall U a fs p u p' b,
  fine U p -> get_base (H_ p) a = Some b -> b_shape b = Some SUnknown -> apt p a b fs e -> m a fs p = (Ok u, p') -> sees p p' a b fs e.

Lemma apt_notext p a b fs e : apt p a b fs e -> ~ notext b.
Proof. intros (L & T) [N|N]; [contradiction|]. destruct T as [T|[T _]]; [rewrite N in T; discriminate|contradiction]. Qed.

Lemma named_plain : (forall e nm, named_in e = Some nm -> just_prim e = false /\ just_array e = false)
  /\ (forall t nm, named_in (EType t) = Some nm -> just_prim (EType t) = false /\ just_array (EType t) = false)
  /\ (forall at_ nm, named_in (EType (TAtom at_)) = Some nm -> just_prim (EType (TAtom at_)) = false /\ just_array (EType (TAtom at_)) = false).
Proof.
  apply (Resolve_proofs.trees_all (fun e => forall nm, named_in e = Some nm -> just_prim e = false /\ just_array e = false)
    (fun t => forall nm, named_in (EType t) = Some nm -> just_prim (EType t) = false /\ just_array (EType t) = false)
    (fun at_ => forall nm, named_in (EType (TAtom at_)) = Some nm -> just_prim (EType (TAtom at_)) = false /\ just_array (EType (TAtom at_)) = false)); cbn; auto; try discriminate.
Qed.

Lemma see_ref_sees s o : seen (EType (TAtom (ARef s o))) (fun a fs => see_ref conc rec (ref_text s o) a fs).
Proof.
  intros U a fs p u p' b F G Su Ap H. unfold see_ref in H. apply dbind_inv in H. destruct H as (b0 & p1 & H1 & H). apply rd_step in H1. destruct H1 as [-> Gb].
  rewrite G in Gb. injection Gb as <-.
  apply dbind_inv in H. destruct H as (q & p1 & H1 & H). injection H1 as <- <-. apply dbind_inv in H. destruct H as (r & p1 & H1 & H). injection H1 as R <-.
  pose proof (ref_type_isb _ _ _ _ _ F R) as Br. apply dbind_inv in H. destruct H as (rb & p1 & H1 & H). apply rd_step in H1. destruct H1 as [-> _].
  destruct (Z.eqb (b_id rb) (b_id b)); [discriminate|]. apply dbind_inv in H. destruct H as (u1 & p1 & H1 & H).
  destruct (settles_fine _ _ _ _ _ _ (Rec U r) F H1) as (F1 & W1 & K1). pose proof (RecE _ _ _ _ _ F H1) as V1.
  apply dbind_inv in H. destruct H as (rb' & p2 & H2 & H). apply rd_step in H2. destruct H2 as [-> Gr].
  pose proof (known_builtin _ _ _ _ F1 K1 Gr) as Bt. apply dbind_inv in H. destruct H as (u2 & p2 & H2 & H).
  destruct (conc_known E m1 U a _ fs Bt _ _ _ F1 H2) as (F2 & W2 & K2).
  assert (Kr : kindof p1 r (b_type rb')).
  { exists rb'. split; auto. split; auto. destruct (known_not_hollow _ _ _ K1 Gr) as (sh & S & N). now apply (hollow_not _ sh). }
  destruct (conc_frame U a (b_type rb') fs p p1 u2 p2 b F1 V1 G Su Bt) as (V2 & V12 & Kin & b' & sh & M & Tb); auto.
  { intros b1 (Re & b1' & sh1 & M1 & Or & _) G1. rewrite (md_base _ _ _ _ _ _ _ _ M1) in G1. injection G1 as ->.
    destruct Ap as (Lk & [Te|(Nc & Qf & e0 & Re0 & Ne0)]); [destruct Re as [Re|Re]; contradiction|].
    destruct (proj1 named_plain e0 _ Ne0) as [Jp Ja]. split.
    - apply (kindof_fun p1 r); auto. apply Or. unfold origin. rewrite Lk. apply String.eqb_neq in Nc. rewrite Nc. exists e0, (ref_text s o). auto.
    - unfold lossy, text_expr. rewrite Lk. apply String.eqb_neq in Nc. rewrite Nc, Re0, Jp. now rewrite Qf. }
  pose proof (ev_len _ _ _ V2) as L2. pose proof (base_lt _ _ _ G) as La. pose proof (base_ok_at _ _ _ _ F G) as Kb.
  assert (Li : b_inherits b < len p) by (eapply has_lt; exact (k_inherits _ _ Kb)).
  assert (Inh : get_slice (H_ p) (b_inherits b) = Some [] -> forall l, fs = Some l -> exists l', get_slice (H_ p2) (b_inherits b) = Some l' /\ forall y, In y l' -> y = r).
  { intros Gi l Qf0.
    assert (X : exists l', get_slice (H_ p1) (b_inherits b) = Some l' /\ forall y, In y l' -> y = r).
    { destruct (ev_old _ _ _ V1 a b (fun q => q) G) as [(_ & Oc & _)|(_ & Re & b1 & sh1 & M1 & _ & _ & Le)].
      - exists []. split; [|intros y []]. revert Gi. apply keeps_slice, Oc. constructor.
      - destruct Ap as (Lk & [Te|(Nc & Qf & e0 & Re0 & Ne0)]); [destruct Re as [Re|Re]; contradiction|].
        assert (Te : text_expr b = Some e0) by (unfold text_expr; rewrite Lk; apply String.eqb_neq in Nc; now rewrite Nc).
        specialize (Le Gi e0 Te). rewrite <- Qf, Qf0 in Le. cbn [isnone] in Le. apply (led_named _ _ _ _ _ _ e0 Ne0) in Le.
        destruct Le as (r' & bx & Rr & Gx & _ & _ & l' & Gl & _ & All).
        rewrite (md_base _ _ _ _ _ _ _ _ M1) in Gx. injection Gx as <-. destruct (md_cells _ _ _ _ _ _ _ _ M1) as (_ & Ci & _). rewrite Ci in Gl.
        exists l'. split; auto. intros y Iy. rewrite (All y Iy).
        pose proof (ref_type_grown _ _ _ _ _ (ev_grown _ _ _ V1) R) as R1. congruence. }
    destruct X as (l' & Gl & All). exists l'. split; auto. revert Gl. apply keeps_slice. exact Kin. }
  assert (Post : exists b3, made p p' a b (eff false fs) True b3 sh /\ evo (eq a) p2 p' /\ b_type b3 = b_type b'
    /\ if isnone fs then b_alias b3 = Some r else get_slice (H_ p) (b_inherits b) = Some [] -> exists l, get_slice (H_ p') (b_inherits b3) = Some l /\ l <> [] /\ forall y, In y l -> y = r).
  { pose proof (md_cells _ _ _ _ _ _ _ _ M) as (Cf & Ci & Cl). pose proof (md_base _ _ _ _ _ _ _ _ M) as G2. pose proof (md_shape _ _ _ _ _ _ _ _ M) as (S2 & N2 & K3).
    destruct fs as [l|].
    - apply hp_ok in H. destruct H as (s' & H & ->). pose proof H as H'.
      apply bind_inv in H. destruct H as (b4 & s1 & Rr & H). apply rd_ok in Rr. destruct Rr as [-> G4]. unfold H_ in G2. rewrite G2 in G4. injection G4 as <-.
      apply bind_inv in H. destruct H as (l' & s1 & Rr & H). apply rd_ok in Rr. destruct Rr as [-> Gl]. rewrite Ci in *.
      assert (Ch : change (b_inherits b) (CSlice (l' ++ [r])) p2 (with_st p2 s')).
      { apply (write_change _ _ _ u); [unfold len in *; lia|exact (alike_slice p2 _ _ _ Gl)|]. unfold hp. rewrite H. reflexivity. }
      assert (Ne : near p2 (with_st p2 s')) by (repeat split).
      assert (Nai : a <> b_inherits b).
      { intros Q. rewrite <- Q in Gl. unfold get_slice in Gl. apply get_base_nth in G2. rewrite G2 in Gl. discriminate. }
      exists b'. enough (X : made p (with_st p2 s') a b (eff false (Some l)) True b' sh /\ evo (eq a) p2 (with_st p2 s')).
      { destruct X as [M' V']. split; auto. split; auto. split; auto. cbn [isnone]. intros Gi. destruct (Inh Gi l eq_refl) as (l1 & Gl1 & All).
        unfold H_ in Gl1. rewrite Gl in Gl1. injection Gl1 as <-. exists (l' ++ [r]). split; [rewrite Ci; apply get_slice_nth; exact (c_new _ _ _ _ Ch)|].
        split; [intros Q; apply app_eq_nil in Q; destruct Q; discriminate|]. intros y Iy. apply in_app_or in Iy. destruct Iy as [Iy|[<-|[]]]; auto. }
      destruct (made_touch (minus U a) p p2 (with_st p2 s') a b (eff false (Some l)) True True b' sh b' sh) as [M' V']; auto.
      + exact (apt_notext _ _ _ _ _ Ap).
      + apply (change_edit _ _ _ _ _ _ Ch); auto.
      + rewrite <- G2. apply get_base_same. exact (c_old _ _ _ _ Ch a Nai).
      + apply same_doc_refl.
      + intros z Hz. rewrite (c_len _ _ _ _ Ch). exact (md_box _ _ _ _ _ _ _ _ M z Hz).
    - pose proof (near_hp _ _ _ _ H) as Ne. destruct (upd_change _ _ _ _ _ H (fun _ _ => eq_refl)) as (b4 & G4 & Ch & G5). rewrite G2 in G4. injection G4 as <-.
      exists (set_alias (Some r) b'). destruct (made_touch (minus U a) p p2 p' a b (eff false None) True True b' sh (set_alias (Some r) b') sh) as [M' V']; auto.
      + exact (apt_notext _ _ _ _ _ Ap).
      + apply (change_edit _ _ _ _ _ _ Ch); auto.
      + split; reflexivity.
      + intros z Hz. rewrite (c_len _ _ _ _ Ch). exact (md_box _ _ _ _ _ _ _ _ M z Hz).
      + repeat (split; auto). }
  destruct Post as (b3 & M3 & V3 & T3 & Rf3). split.
  - apply (evo_trans (eq a) (eq a) p p2 p'); auto. intros z <-. auto.
  - assert (Kr' : kindof p' r (b_type b3)) by (rewrite T3, Tb; apply (ev_kind _ _ _ V3), (ev_kind _ _ _ V12), Kr).
    exists b3, sh. split; [eapply made_it; [|exact M3]; auto|]. split.
    + intros nm y Q Rf. injection Q as <-. rewrite R in Rf. injection Rf as <-. exact Kr'.
    + intros Gi. exists r, b3. pose proof (md_shape _ _ _ _ _ _ _ _ M3) as (S3 & N3 & _).
      split; [|split; [exact (md_base _ _ _ _ _ _ _ _ M3)|split; [now apply (hollow_not _ sh)|split; [exact Kr'|]]]].
      * apply (ref_type_grown p1); [|apply (ref_type_grown p); [exact (ev_grown _ _ _ V1)|exact R]].
        apply (grown_trans p1 p2 p'); [exact (ev_grown _ _ _ V12)|exact (ev_grown _ _ _ V3)].
      * destruct (isnone fs); auto.
Qed.

(** The members of a union. *)
Lemma seen_fresh e m : seen e m -> forall U name loc p x p', fine U p ->
  (a <- fresh_shape conc name "" loc ;; m a None ;;; dret a)%D p = (Ok x, p') ->
  evo none p p' /\ span (len p) (len p') x /\ led (span (len p) (len p')) p' loc e true x.
Proof.
  intros Se U name loc p x p' F H. apply (fresh_evo U name loc (fun a => m a None) (fun Z q l y => led Z q l e true y) p x p'); auto.
  - intros Z Z' q l y W. now apply led_wide.
  - intros V q u q' b Fq Gb Su Lk Ty Gi Hm. destruct (Se V x None q u q' b Fq Gb Su) as (A & b' & sh & _ & _ & Le); auto. split; auto.
Qed.

Lemma members_evo U loc (see : typ -> addr -> option fnodes -> D unit) ts :
  (forall t, In t ts -> forall V a fs, settles V a (see t a fs)) -> (forall t, In t ts -> seen (EType t) (see t)) ->
  forall p xs p', fine U p ->
  (fix members (l : list typ) : D (list addr) :=
               match l with
               | [] => dret []
               | t :: l' =>
                   (x <- fresh_shape conc "" "" loc ;;
                   see t x None ;;;
                   r <- members l' ;;
                   dret (x :: r))%D
               end) ts p = (Ok xs, p') ->
  evo none p p' /\ pairwise (fun t y => span (len p) (len p') y /\ led_typ (span (len p) (len p')) p' loc t true y) ts xs.
Proof.
  intros S Sn. induction ts as [|t ts IH]; intros p xs p' F H.
  - injection H as <- <-. split; [apply evo_refl|exact I].
  - apply dbind_inv in H. destruct H as (x & p1 & H1 & H). apply dbind_inv in H. destruct H as (u & p2 & H2 & H).
    assert (Q : (a <- fresh_shape conc "" "" loc ;; see t a None ;;; dret a)%D p = (Ok x, p2)) by (unfold dbind; rewrite H1; rewrite H2; reflexivity).
    destruct (fresh_then E m1 U "" loc _ _ _ _ (fun V a => S t (or_introl eq_refl) V a None) F Q) as (F2 & W2 & B2).
    destruct (seen_fresh _ _ (Sn t (or_introl eq_refl)) U "" loc p x p2 F Q) as (V2 & Sx & Lx).
    apply dbind_inv in H. destruct H as (r & p3 & H3 & H). injection H as <- <-.
    destruct (IH (fun t' J => S t' (or_intror J)) (fun t' J => Sn t' (or_intror J)) _ _ _ F2 H3) as (V3 & Ls).
    pose proof (ev_len _ _ _ V2) as L2. pose proof (ev_len _ _ _ V3) as L3.
    split; [apply (evo_trans none none p p2 p3); auto; intros z []|]. cbn [pairwise]. split; [split; [unfold span in *; lia|]|].
    + apply (led_evo none (span (len p) (len p2)) (span (len p) (len p3)) p2 p3 loc (EType t) true x); auto. unfold span. lia.
    + eapply pairwise_weak; [|exact Ls]. cbn beta. intros t' y _ [Sy Ly]. split; [unfold span in *; lia|].
      apply (led_wide (span (len p2) (len p3)) _ p3 loc (EType t') true y); auto. unfold span. lia.
Qed.

(** A union gets its members. *)
Lemma union_done V p p2 l a b fs b' sh u p3 : fine V p2 -> len p <= len p2 -> a < len p -> b_inherits b < len p -> ~ notext b ->
  made p p2 a b fs True b' sh -> b_type b' = "union" -> (sl <- hp (alloc (CSlice l)) ;; hp (set_members a sl))%D p2 = (Ok u, p3) ->
  evo (eq a) p2 p3 /\ (exists b3 sh3, made p p3 a b fs True b3 sh3) /\ union_of p3 a l.
Proof.
  intros F Ln La Li Nt M Tb H. apply dbind_inv in H. destruct H as (sl & q & H1 & H).
  destruct (alloc_app _ _ _ _ H1) as (Qs & Lq & A1 & Ns1). pose proof (near_hp _ _ _ _ H1) as Ne1. pose proof (near_hp _ _ _ _ H) as Ne2.
  pose proof (md_base _ _ _ _ _ _ _ _ M) as G2. pose proof (md_shape _ _ _ _ _ _ _ _ M) as (S2 & N2 & K2). rewrite Tb in K2.
  destruct sh; try discriminate. match type of S2 with _ = Some (SUnion ?x ?y) => rename x into s0; rename y into o end. unfold set_members in H. 
  assert (Fl : forall b0, get_base (H_ q) a = Some b0 -> b_loc (match b_shape b0 with Some (SUnion _ e) => set_shape (Some (SUnion sl e)) b0 | _ => b0 end) = b_loc b0) by (intros b0 _; destruct (b_shape b0) as [[]|]; reflexivity).
  destruct (upd_change _ _ _ _ _ H Fl) as (b4 & G4 & Ch & G5).
  rewrite (app_base _ _ _ _ A1 G2) in G4. injection G4 as <-. rewrite S2 in *.
  destruct (made_touch V p p2 p3 a b fs True True b' (SUnion s0 o) (set_shape (Some (SUnion sl o)) b') (SUnion sl o)) as [M' V']; auto.
  - eapply edit_trans; [apply app_edit; [apply Nat.le_refl|exact A1]|]. apply (change_edit _ _ _ _ _ _ Ch); [lia|auto].
  - eapply near_trans; eauto.
  - split; reflexivity.
  - split; [reflexivity|]. split; [discriminate|reflexivity].
  - cbn. intros z ->. rewrite (c_len _ _ _ _ Ch). lia.
  - split; auto. split; [eauto|]. exists (set_shape (Some (SUnion sl o)) b'), sl, o. split; auto. split; [reflexivity|].
    apply get_slice_nth. rewrite (c_old _ _ _ _ Ch); [exact (proj1 Ns1)|]. unfold len in *. lia.
Qed.

Lemma see_made :
  (forall e, seen e (see_expr conc rec e)) /\ (forall t, seen (EType t) (see_typ conc rec t)) /\ (forall at_, seen (EType (TAtom at_)) (see_atom conc rec at_)).
Proof.
  destruct (see_settles E m1 rec Rec) as (Se & St & Sa).
  apply (Resolve_proofs.trees_all (fun e => seen e (see_expr conc rec e)) (fun t => seen (EType t) (see_typ conc rec t))
    (fun at_ => seen (EType (TAtom at_)) (see_atom conc rec at_))).
  - intros t Q. exact Q.
  - intros t1 t2 ts Q1 Q2 Qs U a fs p u p' b F G Su Ap H. rewrite see_union_eq in H.
    pose proof (base_lt _ _ _ G) as La. fold (len p) in La. pose proof (base_ok_at _ _ _ _ F G) as Kb.
    assert (Li : b_inherits b < len p) by (eapply has_lt; exact (k_inherits _ _ Kb)).
    apply dbind_inv in H. destruct H as (u1 & p1 & H1 & H). destruct (conc_known E m1 U a "union" fs eq_refl _ _ _ F H1) as (F1 & W1 & K1).
    destruct (conc_first U a "union" fs p u1 p1 b F G Su eq_refl H1) as (V1 & b' & sh & M & Tb).
    set (V := minus U a) in *.
    apply dbind_inv in H. destruct H as (b0 & p2 & H2 & H). apply rd_step in H2. destruct H2 as [-> G0].
    rewrite (md_base _ _ _ _ _ _ _ _ M) in G0. injection G0 as <-. rewrite (sd_loc _ _ (md_doc _ _ _ _ _ _ _ _ M)) in H.
    apply dbind_inv in H. destruct H as (x1 & p2 & H2 & H). apply dbind_inv in H. destruct H as (u2 & p3 & H3 & H).
    assert (X : (a <- fresh_shape conc "" "" (b_loc b) ;; see_typ conc rec t1 a None ;;; dret a)%D p1 = (Ok x1, p3)) by (unfold dbind; rewrite H2; rewrite H3; reflexivity).
    destruct (fresh_then E m1 V "" (b_loc b) _ _ _ _ (fun V a => St t1 V a None) F1 X) as (F3 & W3 & B3).
    destruct (seen_fresh _ _ Q1 V "" _ _ _ _ F1 X) as (V3 & Sx1 & Lx1). clear X H2 H3.
    apply dbind_inv in H. destruct H as (x2 & p4 & H2 & H). apply dbind_inv in H. destruct H as (u4 & p5 & H3 & H).
    assert (X : (a <- fresh_shape conc "" "" (b_loc b) ;; see_typ conc rec t2 a None ;;; dret a)%D p3 = (Ok x2, p5)) by (unfold dbind; rewrite H2; rewrite H3; reflexivity).
    destruct (fresh_then E m1 V "" (b_loc b) _ _ _ _ (fun V a => St t2 V a None) F3 X) as (F5 & W5 & B5).
    destruct (seen_fresh _ _ Q2 V "" _ _ _ _ F3 X) as (V5 & Sx2 & Lx2). clear X H2 H3.
    apply dbind_inv in H. destruct H as (xs & p6 & H6 & H). rewrite Forall_forall in Qs.
    destruct (see_members E m1 V (b_loc b) (see_typ conc rec) ts (fun t J => St t) _ _ _ F5 H6) as (F6 & W6 & B6).
    destruct (members_evo V (b_loc b) (see_typ conc rec) ts (fun t J => St t) Qs _ _ _ F5 H6) as (V6 & Ls).
    assert (V16 : evo none p1 p6) by (apply (evo_trans none none p1 p5 p6); [apply (evo_trans none none p1 p3 p5)| |]; auto; intros z []).
    pose proof (ev_len _ _ _ V1) as L1. pose proof (ev_len _ _ _ V16) as L6.
    assert (M6 : made p p6 a b (eff false fs) True b' sh).
    { apply (made_evo none p p1 p6); auto. intros z []. }
    destruct (union_done V p p6 (x1 :: x2 :: xs) a b (eff false fs) b' sh u p') as (V7 & (b3 & sh3 & M7) & Un); auto.
    + lia.
    + exact (apt_notext _ _ _ _ _ Ap).
    + split.
      * apply (evo_trans (eq a) (eq a) p p6 p'); auto; [|intros z <-; auto]. apply (evo_trans (eq a) none p p1 p6); auto. intros z [].
      * exists b3, sh3. split; [eapply made_it; [|exact M7]; auto|]. split; [cbn; discriminate|]. intros _. rewrite led_union.
        pose proof (ev_len _ _ _ V3) as L3. pose proof (ev_len _ _ _ V5) as L5. pose proof (ev_len _ _ _ V6) as L56. pose proof (ev_len _ _ _ V7) as L7.
        assert (V57 : evo (eq a) p5 p') by (apply (evo_trans (eq a) (eq a) p5 p6 p'); [apply (evo_weak none); [intros z []|auto]|auto|intros z <-; split; auto; lia]).
        assert (V37 : evo (eq a) p3 p') by (apply (evo_trans (eq a) (eq a) p3 p5 p'); [apply (evo_weak none); [intros z []|auto]|auto|intros z <-; split; auto; lia]).
        exists x1, x2, xs. split; auto. unfold span in Sx1, Sx2. split; [split; [unfold span; lia|]|split; [split; [unfold span; lia|]|]].
        -- apply (led_evo (eq a) (span (len p1) (len p3)) (span (len p) (len p')) p3 p' (b_loc b) (EType t1) true x1); auto; unfold span; lia.
        -- apply (led_evo (eq a) (span (len p3) (len p5)) (span (len p) (len p')) p5 p' (b_loc b) (EType t2) true x2); auto; unfold span; lia.
        -- eapply pairwise_weak; [|exact Ls]. cbn beta. unfold span at 1. intros t y _ [Sy Ly]. split; [unfold span; lia|].
           apply (led_evo (eq a) (span (len p5) (len p6)) (span (len p) (len p')) p6 p' (b_loc b) (EType t) true y); auto; unfold span; lia.
  - intros at_ Q. exact Q.
  - intros at_ Q U a fs p u p' b F G Su Ap H. rewrite see_array_eq in H.
    pose proof (base_lt _ _ _ G) as La. fold (len p) in La. pose proof (base_ok_at _ _ _ _ F G) as Kb.
    assert (Li : b_inherits b < len p) by (eapply has_lt; exact (k_inherits _ _ Kb)).
    apply dbind_inv in H. destruct H as (u1 & p1 & H1 & H). destruct (conc_known E m1 U a "array" fs eq_refl _ _ _ F H1) as (F1 & W1 & K1).
    destruct (conc_first U a "array" fs p u1 p1 b F G Su eq_refl H1) as (V1 & b' & sh & M & Tb).
    set (V := minus U a) in *.
    apply dbind_inv in H. destruct H as (b0 & p2 & H2 & H). apply rd_step in H2. destruct H2 as [-> G0].
    rewrite (md_base _ _ _ _ _ _ _ _ M) in G0. injection G0 as <-. rewrite (sd_loc _ _ (md_doc _ _ _ _ _ _ _ _ M)) in H.
    apply dbind_inv in H. destruct H as (x1 & p2 & H2 & H). apply dbind_inv in H. destruct H as (u2 & p3 & H3 & H).
    assert (X : (a <- fresh_shape conc "" "" (b_loc b) ;; see_atom conc rec at_ a None ;;; dret a)%D p1 = (Ok x1, p3)) by (unfold dbind; rewrite H2; rewrite H3; reflexivity).
    destruct (fresh_then E m1 V "" (b_loc b) _ _ _ _ (fun V a => Sa at_ V a None) F1 X) as (F3 & W3 & B3).
    destruct (seen_fresh _ _ Q V "" _ _ _ _ F1 X) as (V3 & Sx1 & Lx1). clear X H2 H3.
    pose proof (ev_len _ _ _ V1) as L1. pose proof (ev_len _ _ _ V3) as L3.
    assert (M3 : made p p3 a b (eff false fs) True b' sh) by (apply (made_evo none p p1 p3); auto; intros z []).
    pose proof (md_base _ _ _ _ _ _ _ _ M3) as G3. pose proof (md_shape _ _ _ _ _ _ _ _ M3) as (S3 & N3 & K3). rewrite Tb in K3. destruct sh; try discriminate.
    match type of S3 with _ = Some (SArray ?x) => rename x into f0 end.
    pose proof (near_hp _ _ _ _ H) as Ne. pose proof H as H'. apply hp_ok in H. destruct H as (s' & H & Qp). unfold upd_arr in H. apply bind_inv in H.
    destruct H as (b4 & s1 & R & H). apply rd_ok in R. destruct R as [-> G4]. unfold H_ in G3. rewrite G3 in G4. injection G4 as <-. rewrite S3 in H.
    set (b3 := set_shape (Some (SArray (set_items (Some x1) f0))) b') in *.
    assert (Ch : change a (CBase b3) p3 p').
    { apply (write_change _ _ _ u); [unfold len in *; lia|apply (alike_base p3 _ _ _ G3); reflexivity|]. unfold hp. rewrite H. now rewrite Qp. }
    destruct (made_touch V p p3 p' a b (eff false fs) True False b' (SArray f0) b3 (SArray (set_items (Some x1) f0))) as [M' V']; auto.
    + lia.
    + exact (apt_notext _ _ _ _ _ Ap).
    + apply (change_edit _ _ _ _ _ _ Ch); auto.
    + apply get_base_nth. exact (c_new _ _ _ _ Ch).
    + split; reflexivity.
    + split; [reflexivity|]. split; [discriminate|reflexivity].
    + intros z [].
    + intros R0 (A & B & _). split; auto. split; auto. intros [].
    + split.
      * apply (evo_trans (eq a) (eq a) p p3 p'); auto; [|intros z <-; auto]. apply (evo_trans (eq a) none p p1 p3); auto. intros z [].
      * exists b3, (SArray (set_items (Some x1) f0)). split; [eapply made_it; [|exact M']; cbn; discriminate|]. split; [cbn; discriminate|]. intros _.
        pose proof (ev_len _ _ _ V') as L4. unfold span in Sx1. change (led_typ (span (len p) (len p')) p' (b_loc b) (TArray at_) (isnone fs) a). rewrite led_array.
        exists x1. split; [exists b3, (set_items (Some x1) f0); split; [exact (md_base _ _ _ _ _ _ _ _ M')|auto]|]. split; [unfold span; lia|].
        apply (led_evo (eq a) (span (len p1) (len p3)) (span (len p) (len p')) p3 p' (b_loc b) (EType (TAtom at_)) true x1); auto; unfold span; lia.
  - intros at_ Q U a fs p u p' b F G Su Ap H. rewrite see_optional_eq in H.
    pose proof (base_lt _ _ _ G) as La. fold (len p) in La. pose proof (base_ok_at _ _ _ _ F G) as Kb.
    assert (Li : b_inherits b < len p) by (eapply has_lt; exact (k_inherits _ _ Kb)).
    apply dbind_inv in H. destruct H as (u1 & p1 & H1 & H). destruct (conc_known E m1 U a "union" fs eq_refl _ _ _ F H1) as (F1 & W1 & K1).
    destruct (conc_first U a "union" fs p u1 p1 b F G Su eq_refl H1) as (V1 & b' & sh & M & Tb).
    set (V := minus U a) in *.
    apply dbind_inv in H. destruct H as (b0 & p2 & H2 & H). apply rd_step in H2. destruct H2 as [-> G0].
    rewrite (md_base _ _ _ _ _ _ _ _ M) in G0. injection G0 as <-. rewrite (sd_loc _ _ (md_doc _ _ _ _ _ _ _ _ M)) in H.
    apply dbind_inv in H. destruct H as (x1 & p2 & H2 & H). apply dbind_inv in H. destruct H as (u2 & p3 & H3 & H).
    assert (X : (a <- fresh_shape conc "" "" (b_loc b) ;; see_atom conc rec at_ a None ;;; dret a)%D p1 = (Ok x1, p3)) by (unfold dbind; rewrite H2; rewrite H3; reflexivity).
    destruct (fresh_then E m1 V "" (b_loc b) _ _ _ _ (fun V a => Sa at_ V a None) F1 X) as (F3 & W3 & B3).
    destruct (seen_fresh _ _ Q V "" _ _ _ _ F1 X) as (V3 & Sx1 & Lx1). clear X H2 H3.
    apply dbind_inv in H. destruct H as (nl & p4 & H4 & H). destruct (fresh_nil E m1 V "" "nil" (b_loc b) _ _ _ eq_refl F3 H4) as (F4 & W4 & B4).
    destruct (fresh_known_evo V "" "nil" (b_loc b) _ _ _ F3 eq_refl H4) as (V4 & Kn).
    assert (V14 : evo none p1 p4) by (apply (evo_trans none none p1 p3 p4); auto; intros z []).
    pose proof (ev_len _ _ _ V1) as L1. pose proof (ev_len _ _ _ V14) as L4.
    assert (M4 : made p p4 a b (eff false fs) True b' sh) by (apply (made_evo none p p1 p4); auto; intros z []).
    destruct (union_done V p p4 [x1; nl] a b (eff false fs) b' sh u p') as (V7 & (b3 & sh3 & M7) & Un); auto.
    + lia.
    + exact (apt_notext _ _ _ _ _ Ap).
    + split.
      * apply (evo_trans (eq a) (eq a) p p4 p'); auto; [|intros z <-; auto]. apply (evo_trans (eq a) none p p1 p4); auto. intros z [].
      * exists b3, sh3. split; [eapply made_it; [|exact M7]; auto|]. split; [cbn; discriminate|]. intros _.
        pose proof (ev_len _ _ _ V3) as L3. pose proof (ev_len _ _ _ V4) as L34. pose proof (ev_len _ _ _ V7) as L7. unfold span in Sx1.
        assert (V37 : evo (eq a) p3 p') by (apply (evo_trans (eq a) (eq a) p3 p4 p'); [apply (evo_weak none); [intros z []|auto]|auto|intros z <-; split; auto; lia]).
        change (led_typ (span (len p) (len p')) p' (b_loc b) (TOptional at_) (isnone fs) a). rewrite led_optional.
        exists x1, nl. split; auto. split; [unfold span; lia|]. split; [|now apply (ev_kind _ _ _ V7)].
        apply (led_evo (eq a) (span (len p1) (len p3)) (span (len p) (len p')) p3 p' (b_loc b) (EType (TAtom at_)) true x1); auto; unfold span; lia.
  - intros t U a fs p u p' b F G Su Ap H. cbn [see_atom] in H.
    destruct (conc_first U a (prim_text t) None p u p' b F G Su (prim_builtin t) H) as (V1 & b' & sh & M & Tb).
    split; auto. exists b', sh. split; [|split; [cbn; discriminate|intros _; change (kindof p' a (prim_text t)); rewrite <- Tb; exact (made_kind _ _ _ _ _ _ _ _ M)]]. cbn [just_prim]. replace (eff true fs) with (eff false None) by (destruct fs; reflexivity).
    eapply made_it; [|exact M]. auto.
  - intros e Q. exact Q.
  - intros s o. apply see_ref_sees.
Qed.

Lemma each_evo U l : forall p u p', fine U p -> settle_each rec l p = (Ok u, p') -> evo none p p'.
Proof.
  induction l as [|x l IH]; cbn [settle_each]; intros p u p' F H.
  - injection H as _ <-. apply evo_refl.
  - apply dbind_inv in H. destruct H as (u1 & p1 & H1 & H). destruct (settles_fine _ _ _ _ _ _ (Rec U x) F H1) as (F1 & _ & _).
    apply (evo_trans none none p p1 p'); [exact (RecE _ _ _ _ _ F H1)|exact (IH _ _ _ F1 H)|intros z []].
Qed.
End Steps.

(** ** Resolution *)

Lemma evo_done p p' a b : evo (eq a) p p' -> get_base (H_ p) a = Some b -> b_shape b = Some SUnknown -> became p p' a b -> evo none p p'.
Proof.
  intros V G Su Bc. destruct V as [A B C D0 X Y Z0 J]. split; auto. intros x bx _ Gx. destruct (Nat.eq_dec a x) as [<-|N]; [|now apply B].
  right. rewrite G in Gx. injection Gx as <-. auto.
Qed.

Lemma settle_evo m n : forall U a p u p', fine U p -> settle E m n a p = (Ok u, p') -> evo none p p'.
Proof.
  induction n as [|n IH]; intros U a p u p' F H; [discriminate|]. cbn [settle] in H.
  apply dbind_inv in H. destruct H as (b & p1 & H1 & H). apply rd_step in H1. destruct H1 as [-> Gb].
  apply dbind_inv in H. destruct H as (q & p1 & H1 & H). injection H1 as <- <-.
  destruct (b_shape b) as [sh|] eqn:S; [|discriminate].
  assert (Done : dret tt p = (Ok u, p') -> evo none p p') by (intros Q; injection Q as _ <-; apply evo_refl).
  destruct sh; auto. clear Done. pose proof (settle_settles E m n) as Ss.
  set (fs := facets_of a (p_facets p)) in *.
  assert (Kk : forall U q x xb, fine U q -> known (H_ q) x -> get_base (H_ q) x = Some xb -> kindof q x (b_type xb)).
  { intros U0 q x xb _ Kx Gx. exists xb. split; auto. split; auto. destruct (known_not_hollow _ _ _ Kx Gx) as (sh & Sx & N). now apply (hollow_not _ sh). }
  (* the link and the first parent *)
  assert (Fin : forall p1 p2 x xb u2, fine U p1 -> evo none p p1 -> known (H_ p1) x -> get_base (H_ p1) x = Some xb -> notext b ->
    (forall y, origin p b y <-> y = x) -> concrete_yaml E (parse_dt E m) (parse_ne E) a (b_type xb) fs p1 = (Ok u2, p2) -> evo none p p2).
  { intros p1 p2 x xb u2 F1 V1 K1 G1 Nt Or Hc.
    assert (Tx : text_expr b = None).
    { unfold text_expr. destruct (b_link b) eqn:Lk; auto. destruct Nt as [Nt|Nt]; [congruence|]. now rewrite Nt. }
    assert (Lo : lossy b = false) by (unfold lossy; now rewrite Tx). assert (Ar : arr b = false) by (unfold arr; now rewrite Tx).
    destruct (conc_frame m U a (b_type xb) fs p p1 u2 p2 b F1 V1 Gb S (known_builtin _ _ _ _ F1 K1 G1)) as (V2 & V12 & Kin & b' & sh & M & Tb); auto.
    - intros b1 (Re & b1' & sh1 & M1 & O1 & _) Gb1. rewrite (md_base _ _ _ _ _ _ _ _ M1) in Gb1. injection Gb1 as ->.
      split; [|now rewrite Lo]. apply (kindof_fun p1 x); [apply O1; now apply Or|now apply (Kk U)].
    - apply (evo_done p p2 a b); auto. split.
      + destruct Nt as [Nt|Nt]; [now left|right]. rewrite Nt. discriminate.
      + exists b', sh. fold fs. rewrite Lo, Ar. split; [eapply made_it; [|exact M]; auto|].
        assert (Kx : kindof p2 x (b_type b')) by (rewrite Tb; apply (ev_kind _ _ _ V12); now apply (Kk U)).
        split; [intros y Oy; apply Or in Oy; now subst y|]. split; [|intros _ e Te; congruence]. intros _. exists x. split; auto.
        apply (origin_kept (eq a) p p2 b x V2); [intros _ _; exact (md_inh _ _ _ _ _ _ _ _ M Nt)|]. now apply Or. }
  destruct (b_link b) as [l|] eqn:Lk.
  - apply dbind_inv in H. destruct H as (d & p1 & H1 & H). apply rd_step in H1. destruct H1 as [-> Gd]. destruct d as [ds|]; [|discriminate].
    apply dbind_inv in H. destruct H as (u1 & p1 & H1 & H). destruct (settles_fine _ _ _ _ _ _ (Ss U ds) F H1) as (F1 & W1 & K1).
    apply dbind_inv in H. destruct H as (db & p2 & H2 & H). apply rd_step in H2. destruct H2 as [-> G2].
    apply (Fin p1 p' ds db u); auto; [exact (IH _ _ _ _ _ F H1)|left; congruence|].
    intros y. unfold origin. rewrite Lk. split; [congruence|intros ->; exact Gd].
  - destruct (String.eqb (b_type b) "composite") eqn:Co.
    + apply dbind_inv in H. destruct H as (ps & p1 & H1 & H). apply rd_step in H1. destruct H1 as [-> Gp].
      apply dbind_inv in H. destruct H as (u1 & p1 & H1 & H). destruct ps as [|q ps]; [discriminate|].
      pose proof (each_evo _ Ss IH U (q :: ps) _ _ _ F H1) as V1.
      cbn [settle_each] in H1. apply dbind_inv in H1. destruct H1 as (u0 & p0 & H0 & H1).
      destruct (Ss U q _ _ _ F H0) as (F0 & W0 & K0).
      destruct (keep_settle_each _ Ss (minus U q) ps _ _ _ F0 I H1) as (F1 & W1 & _).
      assert (Nq : ~ minus U q q) by (unfold minus; tauto). pose proof (known_fwd _ _ _ _ Nq W1 K0) as K1.
      assert (Wq : fwd U p p1) by (eapply fwd_trans; [exact W0|]; now apply (fwd_minus U q)).
      pose proof (minus_back _ _ _ F1 (fwd_under _ _ _ F Wq)) as F1'.
      apply dbind_inv in H. destruct H as (qb & p2 & H2 & H). apply rd_step in H2. destruct H2 as [-> G2].
      apply (Fin p1 p' q qb u); auto; [right; now apply String.eqb_eq|].
      intros y. unfold origin. rewrite Lk, Co. split; [intros (l & Q); congruence|intros ->; eauto].
    + destruct (read_type (b_type b)) as [e|] eqn:Re; [|discriminate].
      assert (Te : text_expr b = Some e) by (unfold text_expr; now rewrite Lk, Co).
      destruct (proj1 (see_made m _ Ss IH) e U a fs p u p' b F Gb S) as (V & b' & sh & M & Or & Le); auto.
      * split; auto. right. split; [now apply String.eqb_neq|]. split; auto. eauto.
      * apply (evo_done p p' a b); auto. split.
        -- right. intros Q. rewrite Q in Re. discriminate.
        -- exists b', sh. fold fs. unfold lossy, arr. rewrite Te. split; auto.
           split; [intros y Oy; unfold origin in Oy; rewrite Lk, Co in Oy; destruct Oy as (e1 & nm & R1 & N1 & T1); rewrite Re in R1; injection R1 as <-; eapply Or; eauto|].
           split; [intros [N|N]; [congruence|rewrite N in Co; discriminate]|]. intros Gi e1 Te1. injection Te1 as <-. auto.
Qed.

Lemma evo_quiet p p' : p_st p' = p_st p -> p_facets p' = p_facets p -> p_exts p' = p_exts p -> p_libs p' = p_libs p -> p_frags p' = p_frags p -> p_dts p' = p_dts p -> evo none p p'.
Proof.
  intros A B C D0 X Y.
  assert (Hh : H_ p' = H_ p) by (unfold H_; now rewrite A).
  split.
  - unfold len. now rewrite Hh.
  - intros x b _ G. left. split; [now rewrite Hh|]. split; [|now rewrite B]. intros c _ y. now rewrite Hh.
  - intros x t (b & G & R). exists b. now rewrite Hh.
  - intros l o. now rewrite Hh.
  - exists []. now rewrite C, app_nil_r.
  - split; intros; congruence.
  - intros path f O. left. congruence.
  - now apply stays_same.
Qed.

Lemma settle_all_evo m n k : forall p p', fine nobody p -> settle_all E m n k true p = (Ok true, p') -> evo none p p'.
Proof.
  induction k as [|k IH]; intros p p' F H; cbn [settle_all] in H; [discriminate|].
  apply dbind_inv in H. destruct H as (q & p1 & H1 & H). injection H1 as <- <-. destruct (p_todo p) as [|a l] eqn:T.
  - injection H as <-. apply evo_refl.
  - apply dbind_inv in H. destruct H as (r & p1 & H1 & H). apply dbind_inv in H. destruct H as (u & p2 & H2 & H).
    destruct r as [r|]; [|now apply settle_all_bad in H].
    unfold dtry in H1. destruct (settle E m n a p) as [[x| | |] p3] eqn:Es; try discriminate. injection H1 as -> ->.
    destruct (settles_fine _ _ _ _ _ _ (settle_settles E m n nobody a) F Es) as (F1 & W1 & K1).
    pose proof (settle_evo m n nobody a p r p1 F Es) as V1.
    destruct (w_todo _ _ _ W1) as [l' T']. rewrite T in T'. cbn in T'. unfold drop_todo in H2. injection H2 as _ <-.
    match type of H with _ ?P = _ => set (p2 := P) in * end.
    assert (F2 : fine nobody p2).
    { destruct F1 as [A B C D0 G I0]. split; cbn; auto.
      - eapply good_done; [exact K1| |exact A]. cbn. rewrite T'. cbn. intros y [[]|[<-|J]]; auto.
      - intros y J. apply C. rewrite T' in *. now right. }
    apply (evo_trans none none p p2 p'); [|exact (IH _ _ F2 H)|intros z []].
    apply (evo_trans none none p p1 p2); auto; [|intros z []]. apply evo_quiet; reflexivity.
Qed.

(** ** The whole *)

Lemma exts_carry Z p p' : p_st p' = p_st p -> p_facets p' = p_facets p -> p_libs p' = p_libs p -> p_frags p' = p_frags p -> p_dts p' = p_dts p -> annots p p' ->
  carries (rt Z p) (rt Z p') p p'.
Proof.
  intros A B Ql Qf Qd An. assert (Hh : H_ p' = H_ p) by (unfold H_; now rewrite A).
  assert (Kd : forall x t, kindof p x t -> kindof p' x t) by (intros x t (b & G & R); exists b; now rewrite Hh).
  intros v name loc x S. split; [|intros xb G; exists xb; split; auto; now rewrite Hh].
  destruct S as (R & H & L). exists R. split; auto. intros v0 n0 l0 y Hy. apply (local_with_move E route Z p p'); auto.
  - split; auto; [intros z _ _; now rewrite Hh|intros z _; now rewrite B|now apply stays_same].
  - intros v1 n1 l1 z Hz. destruct (L _ _ _ _ Hz) as (b & _ & _ & _ & [Fz _] & _). exact Fz.
  - intros v1 l1 z b _ G _ _ Rt t T. destruct (Rt t T) as (R1 & R2 & R3). rewrite !Hh. split; [|split].
    + intros e Ex Nc. refine (proj1 (led_move Z Z (fun _ => True) p p' l1 _ Kd _ _ _) e (bare_type v1) z I (R1 e Ex Nc)); auto.
      * intros nm r. unfold ref_type. now rewrite Ql, Qf.
      * intros y0 b0 _ G0 _. rewrite Hh. split; auto. intros c _ w. now rewrite Hh.
    + intros K Q. destruct (R2 K Q) as (k & y0 & X1 & X2 & X3 & X4). exists k, y0. split; auto. split; auto. split; auto. eapply from_stays; [|exact X4]. now apply stays_same.
    + intros K. destruct (R3 K) as (y0 & k & X1 & X2). eauto 10.
Qed.
End Settle.

Theorem parse_as_written E n O o1 o2 o3 text path0 ep p : parse_string E n O o1 o2 o3 false false text path0 = (Ok ep, p) ->
  forall path f, oget path (p_frags p) = Some f ->
  exists text', ((path = path0 /\ text' = text) \/ e_read (d_y E) path = Some text') /\ fragment_says E p path text' f.
Proof.
  intros H path f Of. pose proof (parse_fresh _ _ _ _ _ _ _ _ _ _ H) as (_ & _ & _ & Set_).
  unfold parse_string, parse_fragment in H. apply dbind_inv in H. destruct H as (ep' & p1 & H1 & H).
  pose proof (decode_fragment_fine _ _ _ _ _ _ _ fine_new H1) as F1.
  pose proof (decode_fragment_adds E text path0 (fun _ => False) n new_raml ep' p1 H1) as [Ap1 Ld _].
  assert (Fi : filed E text path0 (fun _ => False) none new_raml) by (split; [intros z []|intros pa g Q; discriminate]).
  destruct (Ld none Fi) as (Z1 & [Lt1 Sa1] & _).
  apply dbind_inv in H. destruct H as (u & p2 & H2 & H). injection H as _ <-.
  unfold resolve_fragment in H2. apply dbind_inv in H2. destruct H2 as (ok & p3 & H3 & H2).
  apply dbind_inv in H2. destruct H2 as (u1 & p4 & H4 & H2). destruct ok; [|discriminate]. injection H4 as _ <-.
  pose proof (settle_all_evo E text path0 n n n p1 p3 F1 H3) as V.
  assert (S3 : exists text', source E text path0 path text' /\ exists Z, frag_by E (st_with E (route E) Z p3) p3 path text' f).
  { assert (Of3 : oget path (p_frags p3) = Some f).
    { destruct (resolve_exts (raml_of p3) (p_exts p3)) as [[good l]| | |]; try discriminate. destruct good; [|discriminate]. injection H2 as _ <-. exact Of. }
    destruct (ev_new _ _ _ _ _ _ V _ _ Of3) as [Of1|(text' & So & Fs)]; [|eauto].
    destruct (Sa1 _ _ Of1) as [[]|(text' & So & Fs)]. exists text'. split; auto. exists (with_new Z1 p1 p3).
    eapply frag_by_move; [|exact (evo_libs _ _ _ _ _ _ V)|exact Fs].
    intros v0 n0 l0 y Hy. apply (evo_carries E text path0 none p1 p3 Z1); auto. eapply st_rt; [|exact Hy]. auto. }
  destruct S3 as (text' & So & Z & Fs). exists text'. split; [exact So|].
  destruct (resolve_exts (raml_of p3) (p_exts p3)) as [[good l]| | |] eqn:R; try discriminate. destruct good; [|discriminate]. injection H2 as _ <-.
  match type of Of with oget _ (p_frags ?P) = _ => set (p := P) in * end.
  assert (An : annots p3 p).
  { apply Pipeline_proofs.resolve_exts_declared in R. intros j e N. unfold p. cbn [p_exts].
    clear - R N. revert j N. induction R as [|x y lx ly Rxy R IH]; intros j N; [destruct j; discriminate|].
    destruct j as [|j]; cbn in *; [|now apply IH]. injection N as <-. exists y. destruct Rxy as (Q1 & Q2 & Q3 & _). auto. }
  assert (Fp : frag_by E (st_with E (route E) Z p) p path text' f).
  { refine (frag_by_move E _ _ p3 p path text' f _ _ Fs); [now apply exts_carry|]. intros k lib N. exists lib. auto. }
  assert (K : forall y b, get_base (H_ p) y = Some b -> b_shape b <> Some SUnknown).
  { intros y b G Q. specialize (Set_ y b G). unfold settled in Set_. rewrite Q in Set_. discriminate. }
  assert (St : forall v name loc x, st_with E (route E) Z p v name loc x -> stated E p v name loc x).
  { intros v name loc x. apply (st_with_stated E (route E) Z p v name loc x K). intros v0 l0 y b _ _. apply route_routed.
    intros pa dl I. assert (I3 : In (pa, dl) (p_dts p3)) by exact I. change (located p3 dl pa).
    destruct (sy_new _ _ (stays_trans _ _ _ (e_stays _ _ _ _ Ap1) (ev_stays _ _ _ _ _ _ V)) _ _ I3) as [[]|]; auto. }
  destruct f as [lb|us o|]; cbn in *; auto.
  - destruct Fp as (doc & lib & D & N & T & A). exists doc, lib. split; auto. split; auto. unfold declares_types.
    split; (eapply filled_weak; [|eassumption]); intros k nd nm x [? Q]; (split; auto); now apply St.
  - destruct Fp as (doc & v & x & Q & D & Kd & En & Sx). exists doc, v, x. repeat (split; auto).
Qed.
