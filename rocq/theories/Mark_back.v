(** Recursive shapes are made for types that contain themselves only (C70). *)
From Coq Require Import ZArith List String Bool Lia Relations.
From Verif Require Import Base Scalars Heap Spec_Validate Spec_Mark Heap_lemmas Mark_proofs.
From Verif Require Import Mark_values.
Import ListNotations.
Open Scope string_scope.
Open Scope list_scope.
Open Scope nat_scope.

Section Back.
(** The heap before the walk, and the types that are flagged in it. *)
Variable h0 : list cell.
Variable stale : addr -> Prop.
Let L := List.length h0.
Definition below : addr -> addr -> Prop := clos_trans addr (descends h0).
Definition right (hd : addr) : Prop := stale hd \/ below hd hd.

Definition items_rel (o o' : option shape) : Prop :=
  o' = o \/ exists f f' i', o = Some (SArray f) /\ o' = Some (SArray f') /\ a_items f' = Some i' /\ (L <= i' \/ a_items f = Some i').

Record kept (h : list cell) : Prop := {
  kt_base : forall x b', x < L -> get_base h x = Some b' ->
    exists b, get_base h0 x = Some b /\ b_fdefs b' = b_fdefs b /\ items_rel (b_shape b) (b_shape b');
  kt_props : forall x l', x < L -> get_props h x = Some l' ->
    exists l, get_props h0 x = Some l /\ forall k p', In (k, p') l' -> L <= p_base p' \/ exists k0 p, In (k0, p) l /\ p_base p = p_base p';
  kt_slice : forall x l', x < L -> get_slice h x = Some l' ->
    exists l, get_slice h0 x = Some l /\ forall y, In y l' -> L <= y \/ In y l;
  kt_new : forall x c, L <= x -> nth_error h x = Some c ->
    match c with
    | CBase b => exists hd, b_shape b = Some (SRec hd) /\ right hd /\ L <= b_fdefs b
    | CProps l => l = []
    | CSlice l => l = []
    | _ => True
    end
}.

Lemma kept_start : kept h0.
Proof.
  split.
  - intros x b' _ G. exists b'. split; [exact G|]. split; [reflexivity|now left].
  - intros x l' _ G. exists l'. split; [exact G|]. intros k p' J. right. exists k, p'. auto.
  - intros x l' _ G. exists l'. split; [exact G|]. auto.
  - intros x c Le N. unfold L in Le. assert (x < List.length h0) by (apply nth_error_Some; congruence). lia.
Qed.

(** A cell is replaced by one of the same kind. *)
Lemma kept_write h a c c' : kept h -> nth_error h a = Some c ->
  (forall b', c' = CBase b' -> a < L -> exists b, get_base h0 a = Some b /\ b_fdefs b' = b_fdefs b /\ items_rel (b_shape b) (b_shape b')) ->
  (forall l', c' = CProps l' -> a < L -> exists l, get_props h0 a = Some l /\ forall k p', In (k, p') l' -> L <= p_base p' \/ exists k0 p, In (k0, p) l /\ p_base p = p_base p') ->
  (forall l', c' = CSlice l' -> a < L -> exists l, get_slice h0 a = Some l /\ forall y, In y l' -> L <= y \/ In y l) ->
  (L <= a -> match c' with
    | CBase b => exists hd, b_shape b = Some (SRec hd) /\ right hd /\ L <= b_fdefs b
    | CProps l => l = []
    | CSlice l => l = []
    | _ => True
    end) -> kept (upd a c' h).
Proof.
  intros [K1 K2 K3 K4] N H1 H2 H3 H4.
  assert (At : nth_error (upd a c' h) a = Some c') by exact (nth_error_upd_eq _ _ _ _ N).
  split.
  - intros x b' Lx G. apply get_base_nth in G. destruct (Nat.eq_dec a x) as [<-|Ne].
    + rewrite At in G. injection G as ->. now apply H1.
    + rewrite nth_error_upd_neq in G by auto. apply K1; [exact Lx|now apply get_base_nth].
  - intros x l' Lx G. apply get_props_nth in G. destruct (Nat.eq_dec a x) as [<-|Ne].
    + rewrite At in G. injection G as ->. now apply H2.
    + rewrite nth_error_upd_neq in G by auto. apply K2; [exact Lx|now apply get_props_nth].
  - intros x l' Lx G. apply get_slice_nth in G. destruct (Nat.eq_dec a x) as [<-|Ne].
    + rewrite At in G. injection G as ->. now apply H3.
    + rewrite nth_error_upd_neq in G by auto. apply K3; [exact Lx|now apply get_slice_nth].
  - intros x c1 Lx G. destruct (Nat.eq_dec a x) as [<-|Ne].
    + rewrite At in G. injection G as <-. now apply H4.
    + rewrite nth_error_upd_neq in G by auto. exact (K4 _ _ Lx G).
Qed.

(** The flags that may be set. *)
Definition lit (anc : addr -> Prop) (h : list cell) : Prop := forall x, flag h x = true -> anc x.
Definition ready (anc : addr -> Prop) (c : addr) : Prop := forall f, anc f -> f < L /\ (c < L -> stale f \/ below f c).

Definition T {A} (anc : addr -> Prop) (m : M A) (Q : A -> Prop) : Prop :=
  forall s r s', kept (heap s) -> lit anc (heap s) -> L <= List.length (heap s) -> m s = (r, s') ->
    kept (heap s') /\ L <= List.length (heap s') /\ forall a, r = Ok a -> lit anc (heap s') /\ Q a.

Lemma T_ret {A} anc (a : A) (Q : A -> Prop) : Q a -> T anc (ret a) Q.
Proof. intros q s r s' K F Le H. injection H as <- <-. split; [exact K|]. split; [exact Le|]. intros x [= <-]. auto. Qed.
Lemma T_bind {A B} anc (m : M A) (f : A -> M B) P Q : T anc m P -> (forall a, P a -> T anc (f a) Q) -> T anc (bind m f) Q.
Proof.
  intros Tm Tf s r s' K F Le H. apply bind_run in H. destruct H as [(a & s1 & H1 & H)|(U & q & H1 & _)].
  - destruct (Tm _ _ _ K F Le H1) as (K1 & L1 & O1). destruct (O1 a eq_refl) as [F1 P1]. exact (Tf a P1 _ _ _ K1 F1 L1 H).
  - destruct (Tm _ _ _ K F Le H1) as (K1 & L1 & _). split; [exact K1|]. split; [exact L1|]. intros b ->. exfalso. eapply U; reflexivity.
Qed.
Lemma T_weak {A} anc (m : M A) (P Q : A -> Prop) : (forall a, P a -> Q a) -> T anc m P -> T anc m Q.
Proof.
  intros W Tm s r s' K F Le H. destruct (Tm _ _ _ K F Le H) as (K1 & L1 & O1). split; [exact K1|]. split; [exact L1|].
  intros a E. destruct (O1 a E). auto.
Qed.
(** Reading, with what is known of the state. *)
Lemma T_rd {A B} anc (get : list cell -> addr -> option A) a (f : A -> M B) Q :
  (forall s x, kept (heap s) -> lit anc (heap s) -> get (heap s) a = Some x ->
     forall r s', L <= List.length (heap s) -> f x s = (r, s') -> kept (heap s') /\ L <= List.length (heap s') /\ forall b, r = Ok b -> lit anc (heap s') /\ Q b) ->
  T anc (bind (rd get a) f) Q.
Proof.
  intros Tf s r s' K F Le H. apply rd_run in H. destruct H as [(x & G & H)|[-> ->]]; [exact (Tf s x K F G r s' Le H)|].
  split; [exact K|]. split; [exact Le|]. discriminate.
Qed.

Lemma flag_other m c c0 h x : nth_error h m = Some c0 -> (forall b, c0 <> CBase b) -> (forall b, c <> CBase b) -> flag (upd m c h) x = flag h x.
Proof.
  intros N B0 B1. unfold flag. destruct (Nat.eq_dec m x) as [<-|Ne].
  - assert (E1 : get_base (upd m c h) m = None) by (unfold get_base; rewrite (nth_error_upd_eq _ _ _ _ N); destruct c; auto; now destruct (B1 b)).
    assert (E2 : get_base h m = None) by (unfold get_base; rewrite N; destruct c0; auto; now destruct (B0 b)). now rewrite E1, E2.
  - unfold get_base. now rewrite nth_error_upd_neq by auto.
Qed.
Lemma flag_base m b b0 h x : get_base h m = Some b0 -> flag (upd m (CBase b) h) x = if Nat.eqb m x then b_visited b else flag h x.
Proof.
  intros N. apply get_base_nth in N. unfold flag. destruct (Nat.eqb m x) eqn:Q.
  - apply Nat.eqb_eq in Q. subst x. unfold get_base. now rewrite (nth_error_upd_eq _ _ _ _ N).
  - apply Nat.eqb_neq in Q. unfold get_base. now rewrite nth_error_upd_neq by auto.
Qed.

Lemma oset_sub {A} k (v : A) l x y : In (x, y) (oset k v l) -> y = v \/ In (x, y) l.
Proof.
  induction l as [|[k1 z] l IH]; cbn; [intros [I|[]]; injection I as _ <-; auto|].
  destruct (String.eqb k k1); intros [I|I].
  - injection I as _ <-. auto.
  - right. now right.
  - right. now left.
  - destruct (IH I); auto.
Qed.

Section Rec.
Variable n : nat.
Variable rec : addr -> M (option addr).
Hypothesis Rec : forall anc c, ready anc c -> T anc (rec c) (fun o => forall y, o = Some y -> L <= y).

Lemma T_props anc m key p x : m < L -> L <= x -> T anc (props_set m key (set_pbase x p)) (fun _ => True).
Proof.
  intros Lm Lx. unfold props_set. apply T_rd. intros s l K F G r s' Le H. unfold Heap.write in H. injection H as <- <-. cbn [heap].
  destruct (kt_props _ K _ _ Lm G) as (l0 & G0 & In0). apply get_props_nth in G. split; [|split].
  - apply (kept_write _ _ _ _ K G); try discriminate; [|intros X; lia].
    intros l' [= <-] _. exists l0. split; [exact G0|]. intros k p' J. destruct (oset_sub _ _ _ _ _ J) as [->|J']; [left; exact Lx|exact (In0 _ _ J')].
  - now rewrite upd_length.
  - intros b _. split; [|exact Logic.I]. intros y. rewrite (flag_other _ _ _ _ _ G); [apply F|discriminate|discriminate].
Qed.

Lemma T_map anc m : (forall h l k p, kept h -> get_props h m = Some l -> In (k, p) l -> ready anc (p_base p)) ->
  T anc (mark_map n rec m) (fun _ => True).
Proof.
  intros Hm. unfold mark_map. generalize 0. induction n as [|k IH]; intros i; cbn [loop_props].
  { intros s r s' K F Le H. injection H as <- <-. split; [exact K|]. split; [exact Le|]. discriminate. }
  apply T_rd. intros s l K F G r s' Le H. destruct (nth_error l i) as [[key p]|] eqn:Ni.
  2:{ injection H as <- <-. split; [exact K|]. split; [exact Le|]. intros b [= <-]. auto. }
  assert (J : In (key, p) l) by exact (nth_error_In _ _ Ni).
  assert (Lm : m < L).
  { destruct (Nat.lt_ge_cases m L) as [X|X]; [exact X|]. pose proof G as G'. apply get_props_nth in G'. pose proof (kt_new _ K _ _ X G') as E. cbn in E. subst l. destruct i; discriminate. }
  refine (T_bind anc _ _ (fun _ => True) (fun _ => True) _ (fun _ _ => IH (S i)) s r s' K F Le H).
  refine (T_bind anc _ _ _ (fun _ => True) (Rec anc _ (Hm _ _ _ _ K G J)) _).
  intros [x|] Hx; [|now apply T_ret]. apply T_props; [exact Lm|exact (Hx x eq_refl)].
Qed.

Lemma T_slice_set anc m i x : m < L -> L <= x -> T anc (slice_set m i x) (fun _ => True).
Proof.
  intros Lm Lx. unfold slice_set. apply T_rd. intros s l K F G r s' Le H. destruct (nth_error l i) as [y|] eqn:Ni.
  2:{ injection H as <- <-. split; [exact K|]. split; [exact Le|]. discriminate. }
  unfold Heap.write in H. injection H as <- <-. cbn [heap].
  destruct (kt_slice _ K _ _ Lm G) as (l0 & G0 & In0). apply get_slice_nth in G. split; [|split].
  - apply (kept_write _ _ _ _ K G); try discriminate; [|intros X; lia].
    intros l' [= <-] _. exists l0. split; [exact G0|]. intros z J. apply In_nth_error in J. destruct J as [j J].
    destruct (Nat.eq_dec i j) as [<-|Ne]; [rewrite (nth_error_upd_eq _ _ _ _ Ni) in J; injection J as <-; auto|].
    rewrite nth_error_upd_neq in J by auto. apply In0. exact (nth_error_In _ _ J).
  - now rewrite upd_length.
  - intros b _. split; [|exact Logic.I]. intros z. rewrite (flag_other _ _ _ _ _ G); [apply F|discriminate|discriminate].
Qed.

Lemma T_loop_slice anc sl : (forall h l y, kept h -> get_slice h sl = Some l -> In y l -> ready anc y) ->
  T anc (loop_slice n sl 0 (fun i item => bind (rec item) (fun r => match r with Some x => slice_set sl i x | None => ret tt end))) (fun _ => True).
Proof.
  intros Hm. generalize 0. induction n as [|k IH]; intros i; cbn [loop_slice].
  { intros s r s' K F Le H. injection H as <- <-. split; [exact K|]. split; [exact Le|]. discriminate. }
  apply T_rd. intros s l K F G r s' Le H. destruct (nth_error l i) as [y|] eqn:Ni.
  2:{ injection H as <- <-. split; [exact K|]. split; [exact Le|]. intros b [= <-]. auto. }
  assert (J : In y l) by exact (nth_error_In _ _ Ni).
  assert (Lm : sl < L).
  { destruct (Nat.lt_ge_cases sl L) as [X|X]; [exact X|]. pose proof G as G'. apply get_slice_nth in G'. pose proof (kt_new _ K _ _ X G') as E. cbn in E. subst l. destruct i; discriminate. }
  refine (T_bind anc _ _ (fun _ => True) (fun _ => True) _ (fun _ _ => IH (S i)) s r s' K F Le H).
  refine (T_bind anc _ _ _ (fun _ => True) (Rec anc _ (Hm _ _ _ K G J)) _).
  intros [x|] Hx; [|now apply T_ret]. apply T_slice_set; [exact Lm|exact (Hx x eq_refl)].
Qed.

Lemma T_items anc a x : a < L -> L <= x -> T anc (upd_arr a (set_items (Some x))) (fun _ => True).
Proof.
  intros La Lx. unfold upd_arr. apply T_rd. intros s b K F G r s' Le H.
  destruct (b_shape b) as [sh|] eqn:Sh; [|injection H as <- <-; split; [exact K|]; split; [exact Le|]; intros; auto].
  destruct sh; try (injection H as <- <-; split; [exact K|]; split; [exact Le|]; intros; auto; fail).
  unfold Heap.write in H. injection H as <- <-. cbn [heap]. destruct (kt_base _ K _ _ La G) as (b0 & G0 & Fd & Ir).
  pose proof G as N. apply get_base_nth in N. split; [|split].
  - apply (kept_write _ _ _ _ K N); try discriminate; [|intros X; lia].
    intros b' [= <-] _. exists b0. split; [exact G0|]. split; [exact Fd|]. right. rewrite Sh in Ir. cbn [b_shape set_shape].
    destruct Ir as [Ir|(f1 & f2 & i2 & E1 & E2 & _)]; [exists f|exists f1]; eexists; exists x; (split; [eauto|]); (split; [reflexivity|]); (split; [reflexivity|]); auto.
  - now rewrite upd_length.
  - intros b1 _. split; [|exact Logic.I]. intros y. rewrite (flag_base _ _ _ _ _ G). destruct (Nat.eqb a y) eqn:Q; [|apply F].
    apply Nat.eqb_eq in Q. subst y. intros V. apply F. unfold flag. now rewrite G.
Qed.

(** What a type of the heap points to now, it pointed to before the walk, or it
    is a new recursive shape. *)
Lemma old_entry h m l k p : kept h -> get_props h m = Some l -> In (k, p) l ->
  L <= p_base p \/ exists l0 k0 p0, get_props h0 m = Some l0 /\ In (k0, p0) l0 /\ p_base p0 = p_base p.
Proof.
  intros K G J. destruct (Nat.lt_ge_cases m L) as [Lm|Lm].
  - destruct (kt_props _ K _ _ Lm G) as (l0 & G0 & B). destruct (B _ _ J) as [X|(k0 & p0 & J0 & E)]; [now left|]. right. exists l0, k0, p0. auto.
  - apply get_props_nth in G. pose proof (kt_new _ K _ _ Lm G) as E. cbn in E. subst l. destruct J.
Qed.

Lemma old_child h a sh c : kept h -> a < L -> shape_at h a sh -> (forall hd, sh <> SRec hd) -> child h sh c -> L <= c \/ descends h0 a c.
Proof.
  intros K La (b & G & Sh) NR Ch. destruct (kt_base _ K _ _ La G) as (b0 & G0 & _ & Ir). rewrite Sh in Ir.
  destruct Ir as [Ir|(f & f' & i & E1 & E2 & E3 & E4)].
  - assert (S0 : shape_at h0 a sh) by (exists b0; auto).
    inversion Ch as [f i Hi|f ps k p Po J|f ps k p Po J|sl e l m Hl J|hd]; subst.
    + right. exact (ds_child _ _ _ _ S0 NR (ch_items _ _ _ Hi)).
    + destruct Po as [[_ ->]|(m & Om & Po)]; [destruct J|].
      destruct (old_entry _ _ _ _ _ K Po J) as [X|(l0 & k0 & p0 & G1 & J0 & <-)]; [now left|]. right.
      refine (ds_child _ _ _ _ S0 NR (ch_prop _ _ l0 k0 p0 _ J0)). right. exists m. auto.
    + destruct Po as [[_ ->]|(m & Om & Po)]; [destruct J|].
      destruct (old_entry _ _ _ _ _ K Po J) as [X|(l0 & k0 & p0 & G1 & J0 & <-)]; [now left|]. right.
      refine (ds_child _ _ _ _ S0 NR (ch_pprop _ _ l0 k0 p0 _ J0)). right. exists m. auto.
    + destruct (Nat.lt_ge_cases sl L) as [Lm|Lm].
      * destruct (kt_slice _ K _ _ Lm Hl) as (l0 & G1 & B). destruct (B _ J) as [X|J0]; [now left|]. right.
        exact (ds_child _ _ _ _ S0 NR (ch_member _ _ _ _ _ G1 J0)).
      * apply get_slice_nth in Hl. pose proof (kt_new _ K _ _ Lm Hl) as E. cbn in E. subst l. destruct J.
    + now destruct (NR c).
  - injection E2 as ->. inversion Ch as [f0 i0 Hi| | | |]; subst. rewrite E3 in Hi. injection Hi as <-. destruct E4 as [X|X]; [now left|]. right.
    refine (ds_child _ _ _ _ (ex_intro _ b0 (conj G0 E1)) _ (ch_items _ _ _ X)). discriminate.
Qed.

Lemma old_fdef h a b l k p : kept h -> a < L -> get_base h a = Some b -> get_props h (b_fdefs b) = Some l -> In (k, p) l -> L <= p_base p \/ descends h0 a (p_base p).
Proof.
  intros K La G Gp J. destruct (kt_base _ K _ _ La G) as (b0 & G0 & Fd & _). destruct (old_entry _ _ _ _ _ K Gp J) as [X|(l0 & k0 & p0 & G1 & J0 & <-)]; [now left|].
  right. rewrite Fd in G1. exact (ds_fdef _ _ _ _ _ _ G0 G1 J0).
Qed.

(** The types above [a], and [a] itself. *)
Definition with_a (anc : addr -> Prop) (a x : addr) : Prop := anc x \/ x = a.
Lemma ready_with anc a c : ready anc a -> a < L -> L <= c \/ descends h0 a c -> ready (with_a anc a) c.
Proof.
  intros R La D f [Hf| ->].
  - destruct (R _ Hf) as [Lf B]. split; [exact Lf|]. intros Lc. destruct D as [D|D]; [lia|]. destruct (B La) as [X|X]; [now left|]. right.
    exact (t_trans _ _ _ _ _ X (t_step _ _ _ _ D)).
  - split; [exact La|]. intros Lc. destruct D as [D|D]; [lia|]. right. now apply t_step.
Qed.
Lemma ready_child anc a c : ready anc a -> a < L -> L <= c \/ descends h0 a c -> ready anc c.
Proof. intros R La D f Hf. apply (ready_with anc a c R La D). now left. Qed.

Lemma T_shape anc a : ready anc a -> a < L -> T (with_a anc a) (mark_shape n rec a) (fun _ => True).
Proof.
  intros R La. unfold mark_shape. apply T_rd. intros s b K F G r s' Le H.
  assert (Stop : T (with_a anc a) (ret tt) (fun _ => True)) by now apply T_ret.
  assert (SA : forall sh, b_shape b = Some sh -> shape_at (heap s) a sh) by (intros; exists b; auto).
  assert (Map : forall m f, b_shape b = Some (SObject f) -> o_props f = Some m \/ o_pprops f = Some m ->
            forall h l k p, kept h -> get_props h m = Some l -> In (k, p) l -> ready (with_a anc a) (p_base p)).
  { intros m f Sh Om h l k p K1 G1 J. apply (ready_with _ _ _ R La). destruct (old_entry _ _ _ _ _ K1 G1 J) as [X|(l0 & k0 & p0 & G2 & J0 & <-)]; [now left|]. right.
    destruct (kt_base _ K _ _ La G) as (b0 & G0 & _ & Ir). rewrite Sh in Ir. destruct Ir as [Ir|(f1 & f' & i & _ & X & _)]; [|discriminate].
    assert (S0 : shape_at h0 a (SObject f)) by (exists b0; auto).
    destruct Om as [Om|Om].
    - refine (ds_child _ _ _ _ S0 _ (ch_prop _ _ l0 k0 p0 _ J0)); [discriminate|]. right. exists m. auto.
    - refine (ds_child _ _ _ _ S0 _ (ch_pprop _ _ l0 k0 p0 _ J0)); [discriminate|]. right. exists m. auto. }
  destruct (b_shape b) as [sh|] eqn:Sh; [|exact (Stop _ _ _ K F Le H)].
  destruct sh as [| | | | | | | | | | |f|f|sl e| | |]; try exact (Stop _ _ _ K F Le H).
  - (* array *)
    destruct (a_items f) as [i|] eqn:Ei; [|exact (Stop _ _ _ K F Le H)].
    refine (T_bind _ _ _ _ (fun _ => True) (Rec (with_a anc a) i _) _ _ _ _ K F Le H).
    + apply (ready_with _ _ _ R La). refine (old_child _ _ _ _ K La (SA _ eq_refl) _ (ch_items _ _ _ Ei)). discriminate.
    + intros [x|] Hx; [|exact Stop]. apply T_items; [exact La|exact (Hx x eq_refl)].
  - (* object *)
    refine (T_bind _ _ _ (fun _ => True) (fun _ => True) _ _ _ _ _ K F Le H).
    + destruct (o_props f) as [m|] eqn:Om; [|exact Stop]. cbn [mark_optmap]. apply T_map. exact (Map m f eq_refl (or_introl Om)).
    + intros _ _. destruct (o_pprops f) as [m|] eqn:Om; [|exact Stop]. cbn [mark_optmap]. apply T_map. exact (Map m f eq_refl (or_intror Om)).
  - (* union *)
    refine (T_loop_slice (with_a anc a) _ _ _ _ _ K F Le H). intros h l y K1 G1 J. apply (ready_with _ _ _ R La).
    destruct (Nat.lt_ge_cases sl L) as [Lm|Lm].
    + destruct (kt_slice _ K1 _ _ Lm G1) as (l0 & G2 & B). destruct (B _ J) as [X|J0]; [now left|]. right.
      destruct (kt_base _ K _ _ La G) as (b0 & G0 & _ & Ir). rewrite Sh in Ir. destruct Ir as [Ir|(f1 & f' & i & _ & X & _)]; [|discriminate].
      refine (ds_child _ _ _ _ (ex_intro _ b0 (conj G0 (eq_sym Ir))) _ (ch_member _ _ _ _ _ G2 J0)). discriminate.
    + apply get_slice_nth in G1. pose proof (kt_new _ K1 _ _ Lm G1) as E. cbn in E. subst l. destruct J.
Qed.
End Rec.

(** The ShapeVisited flag is put and removed. *)
Lemma visit_kept a v s r s' : kept (heap s) -> upd_base a (set_visited v) s = (r, s') ->
  kept (heap s') /\ List.length (heap s') = List.length (heap s) /\ (forall x, flag (heap s') x = true -> flag (heap s) x = true \/ x = a)
  /\ (v = false -> r = Ok tt -> flag (heap s') a = false).
Proof.
  intros K H. unfold upd_base in H. apply rd_run in H. destruct H as [(b & G & H)|[-> ->]].
  2:{ split; [exact K|]. split; [reflexivity|]. split; [auto|discriminate]. }
  unfold Heap.write in H. injection H as <- <-. cbn [heap]. pose proof G as N. apply get_base_nth in N. split; [|split; [now rewrite upd_length|split]].
  - apply (kept_write _ _ _ _ K N); try discriminate.
    + intros b' [= <-] La. destruct (kt_base _ K _ _ La G) as (b0 & G0 & Fd & Ir). exists b0. auto.
    + intros La. exact (kt_new _ K _ _ La N).
  - intros x. rewrite (flag_base _ _ _ _ _ G). destruct (Nat.eqb a x) eqn:Q; [|auto]. apply Nat.eqb_eq in Q. auto.
  - intros -> _. rewrite (flag_base _ _ _ _ _ G), Nat.eqb_refl. reflexivity.
Qed.

Lemma kept_add h l : kept h -> L <= List.length h -> (forall c, In c l -> match c with
    | CBase b => exists hd, b_shape b = Some (SRec hd) /\ right hd /\ L <= b_fdefs b
    | CProps l => l = []
    | CSlice l => l = []
    | _ => True
    end) -> kept (h ++ l).
Proof.
  intros [K1 K2 K3 K4] Le N. split.
  - intros x b' Lx G. apply K1; [exact Lx|]. unfold get_base in *. now rewrite nth_error_app1 in G by lia.
  - intros x b' Lx G. apply K2; [exact Lx|]. unfold get_props in *. now rewrite nth_error_app1 in G by lia.
  - intros x b' Lx G. apply K3; [exact Lx|]. unfold get_slice in *. now rewrite nth_error_app1 in G by lia.
  - intros x c Lx G. destruct (Nat.lt_ge_cases x (List.length h)) as [Y|Y].
    + rewrite nth_error_app1 in G by exact Y. exact (K4 _ _ Lx G).
    + rewrite nth_error_app2 in G by exact Y. apply N. exact (nth_error_In _ _ G).
Qed.

Lemma make_kept anc a : right a -> T anc (make_recursive a) (fun x => L <= x).
Proof.
  intros Ra s r s' K F Le H. assert (KF : forall q, r = Ok q -> forall y, flag (heap s') y = flag (heap s) y) by (intros q ->; exact (kf_make_recursive a _ _ _ H)).
  unfold make_recursive in H. apply rd_run in H. destruct H as [(hb & G & H)|[-> ->]].
  2:{ split; [exact K|]. split; [exact Le|]. discriminate. }
  unfold make_base, gen_id, alloc, put_shape, ret, upd_base, rd, Heap.write, bind in H. cbn in H.
  set (h := heap s) in *.
  match type of H with context [get_base ?q ?x] => assert (Gx : exists nb, get_base q x = Some nb /\ q = h ++ [CFacets []; CProps []; CSlice []; CBase nb] /\ x = List.length h + 3 /\ b_fdefs nb = List.length h + 1) end.
  { eexists. split; [|split; [|split]].
    - unfold get_base. rewrite nth_error_app2 by lia. rewrite Nat.sub_diag. reflexivity.
    - repeat rewrite <- app_assoc. reflexivity.
    - repeat rewrite app_length. cbn. lia.
    - cbn. rewrite app_length. cbn. lia. }
  destruct Gx as (nb & Gx & Eq & Ex & Ef). rewrite Gx in H. injection H as <- <-. cbn [heap] in *.
  rewrite Eq, Ex in *.
  assert (U : forall c', upd (List.length h + 3) c' (h ++ [CFacets []; CProps []; CSlice []; CBase nb]) = h ++ [CFacets []; CProps []; CSlice []; c']).
  { intros c'. generalize h. clear. intros h. induction h as [|c h IH]; cbn; [reflexivity|now rewrite IH]. }
  rewrite U in *. split; [|split].
  - apply kept_add; [exact K|exact Le|]. intros c [<-|[<-|[<-|[<-|[]]]]]; auto. exists a. split; [reflexivity|]. split; [exact Ra|]. cbn. lia.
  - rewrite app_length. lia.
  - intros x [= <-]. split; [|lia]. intros y Y. apply F. rewrite <- (KF _ eq_refl y). exact Y.
Qed.

Lemma mark_kept n : forall anc a, ready anc a -> T anc (mark n a) (fun o => forall y, o = Some y -> L <= y).
Proof.
  induction n as [|n IH]; intros anc a R; cbn [mark].
  { intros s r s' K F Le H. injection H as <- <-. split; [exact K|]. split; [exact Le|]. discriminate. }
  apply T_rd. intros s b K F G r s' Le H.
  destruct (negb (b_unwrapped b)).
  { injection H as <- <-. split; [exact K|]. split; [exact Le|]. discriminate. }
  destruct (b_visited b) eqn:V.
  { assert (Ha : anc a) by (apply F; unfold flag; now rewrite G). destruct (R a Ha) as [La B].
    refine (T_bind anc _ _ _ _ (make_kept anc a (B La)) _ s r s' K F Le H). intros x Lx. apply T_ret. intros y [= <-]. exact Lx. }
  assert (Base : forall s0 r0 s0', kept (heap s0) -> L <= List.length (heap s0) -> lit (with_a anc a) (heap s0) ->
     bind (upd_base a (set_visited false)) (fun _ => bind (rd get_base a) (fun b' => bind (mark_map n (mark n) (b_fdefs b')) (fun _ => ret None))) s0 = (r0, s0') ->
     kept (heap s0') /\ L <= List.length (heap s0') /\ forall o : option addr, r0 = Ok o -> lit anc (heap s0') /\ forall y, o = Some y -> L <= y).
  { intros s0 r0 s0' K0 L0 F0 H0. apply bind_run in H0. destruct H0 as [([] & s1 & H1 & H0)|(U & q & H1 & _)].
    2:{ destruct (visit_kept _ _ _ _ _ K0 H1) as (K1 & E1 & _). split; [exact K1|]. split; [lia|]. intros o ->. exfalso. eapply U; reflexivity. }
    destruct (visit_kept _ _ _ _ _ K0 H1) as (K1 & E1 & Fl & Fa). specialize (Fa eq_refl eq_refl).
    assert (F1 : lit anc (heap s1)).
    { intros x Fx. destruct (Fl x Fx) as [X| ->]; [|congruence]. destruct (F0 x X) as [Y| ->]; [exact Y|congruence]. }
    refine (T_rd anc get_base a _ _ _ s1 r0 s0' K1 F1 ltac:(lia) H0). clear - R IH. intros s b K F G r s' Le H.
    refine (T_bind anc _ _ (fun _ => True) _ _ (fun _ _ => T_ret _ _ _ _) s r s' K F Le H); [|discriminate].
    apply T_map; [exact IH|]. intros h l k p K1 G1 J.
    destruct (Nat.lt_ge_cases a L) as [La|La].
    - apply (ready_child anc a _ R La). destruct (kt_base _ K _ _ La G) as (b0 & G0 & Fd & _). destruct (old_entry _ _ _ _ _ K1 G1 J) as [X|(l0 & k0 & p0 & G2 & J0 & <-)]; [now left|].
      right. rewrite Fd in G2. exact (ds_fdef _ _ _ _ _ _ G0 G2 J0).
    - exfalso. apply get_base_nth in G. destruct (kt_new _ K _ _ La G) as (hd & _ & _ & Lf). apply get_props_nth in G1. pose proof (kt_new _ K1 _ _ Lf G1) as E. cbn in E. subst l. destruct J. }
  apply bind_run in H. destruct H as [([] & s1 & H1 & H)|(U & q & H1 & _)].
  2:{ destruct (visit_kept _ _ _ _ _ K H1) as (K1 & E1 & _). split; [exact K1|]. split; [lia|]. intros o ->. exfalso. eapply U; reflexivity. }
  destruct (visit_kept _ _ _ _ _ K H1) as (K1 & E1 & Fl & _).
  assert (F1 : lit (with_a anc a) (heap s1)) by (intros x Fx; destruct (Fl x Fx) as [X| ->]; [left; auto|now right]).
  apply bind_run in H. destruct H as [([] & s2 & H2 & H)|(U & q & H2 & Er)].
  - destruct (Nat.lt_ge_cases a L) as [La|La].
    + destruct (T_shape n (mark n) IH anc a R La _ _ _ K1 F1 ltac:(lia) H2) as (K2 & L2 & O2). destruct (O2 tt eq_refl) as [F2 _]. exact (Base _ _ _ K2 L2 F2 H).
    + unfold mark_shape in H2. apply rd_run in H2. destruct H2 as [(b1 & G1 & H2)|[H2 _]]; [|discriminate].
      apply get_base_nth in G1. destruct (kt_new _ K1 _ _ La G1) as (hd & Eh & _). rewrite Eh in H2. injection H2 as <-. exact (Base _ _ _ K1 ltac:(lia) F1 H).
  - destruct (Nat.lt_ge_cases a L) as [La|La].
    + destruct (T_shape n (mark n) IH anc a R La _ _ _ K1 F1 ltac:(lia) H2) as (K2 & L2 & _). split; [exact K2|]. split; [exact L2|]. intros o ->. exfalso. eapply U; reflexivity.
    + unfold mark_shape in H2. apply rd_run in H2. destruct H2 as [(b1 & G1 & H2)|[H2 H2']].
      * apply get_base_nth in G1. destruct (kt_new _ K1 _ _ La G1) as (hd & Eh & _). rewrite Eh in H2. injection H2 as <- <-. destruct Er as [Er _]. exfalso. eapply Er; reflexivity.
      * subst s'. split; [exact K1|]. split; [lia|]. intros o ->. exfalso. eapply U; reflexivity.
Qed.

Hypothesis Stale : forall x, flag h0 x = true -> stale x /\ x < L.
Lemma mark_all_kept n l s r s' : heap s = h0 -> mark_all n l s = (r, s') -> kept (heap s').
Proof.
  intros Eh H.
  assert (Q : T (fun x => stale x /\ x < L) (mark_all n l) (fun _ => True)).
  { clear H. induction l as [|a l IH]; cbn [mark_all]; [now apply T_ret|].
    refine (T_bind _ _ _ _ (fun _ => True) (mark_kept n _ a _) (fun _ _ => IH)). intros f [Sf Lf]. split; [exact Lf|]. auto. }
  assert (K0 : kept (heap s)) by (rewrite Eh; exact kept_start).
  assert (F0 : lit (fun x => stale x /\ x < L) (heap s)) by (rewrite Eh; exact Stale).
  assert (L0 : L <= List.length (heap s)) by (rewrite Eh; unfold L; lia).
  destruct (Q _ _ _ K0 F0 L0 H) as (K & _). exact K.
Qed.
End Back.
(** Paths of the heap before the walk are paths of the heap after it. *)
Lemma leads_chain h n x y : rchain h n x y -> clos_refl_trans addr (leads h) x y.
Proof.
  induction 1 as [|n x b y z G Sh _ _ IH]; [apply rt_refl|]. refine (rt_trans _ _ _ _ _ (rt_step _ _ _ _ _) IH). right. exists b. auto.
Qed.
Lemma ct_rt {A} (R : A -> A -> Prop) x y z : R x y -> clos_refl_trans A R y z -> clos_trans A R x z.
Proof.
  intros H K. apply clos_rt_rtn1 in K. induction K as [|y1 z1 H1 _ IH]; [now apply t_step|]. exact (t_trans _ _ _ _ _ IH (t_step _ _ _ _ H1)).
Qed.

Lemma leads_entry k h' l l' key p : Forall2 (erel h' k) l l' -> In (key, p) l -> exists p', In (key, p') l' /\ rchain h' k (p_base p') (p_base p).
Proof.
  induction 1 as [|e e' l l' E _ IH]; [intros []|]. intros [->|J].
  - destruct E as (E1 & _ & _ & E4). destruct e' as [k' p']. cbn in *. subst k'. exists p'. split; [now left|exact E4].
  - destruct (IH J) as (p' & J' & R). exists p'. split; [now right|exact R].
Qed.
Lemma leads_item k h' l l' x : Forall2 (fun x x' => rchain h' k x' x) l l' -> In x l -> exists x', In x' l' /\ rchain h' k x' x.
Proof. induction 1 as [|e e' l l' E _ IH]; [intros []|]. intros [->|J]; [exists e'; split; [now left|exact E]|]. destruct (IH J) as (x' & J' & R). exists x'. split; [now right|exact R]. Qed.

Lemma leads_redir k h h' a c : redir k h h' -> leads h a c -> clos_trans addr (leads h') a c.
Proof.
  intros (R1 & R2 & R3 & _) [D|(b & G & Sh)].
  2:{ destruct (R1 _ _ G) as (b' & G' & _ & S'). apply t_step. right. exists b'. split; [exact G'|].
      destruct S' as [S'|(f & i & i' & E & _)]; congruence. }
  destruct D as [a sh c (b & G & Sh) NR Ch|a b m key p G Gm J].
  - destruct (R1 _ _ G) as (b' & G' & _ & S'). rewrite Sh in S'.
    destruct S' as [S'|(f & i & i' & E & Ei & E' & Rc)].
    + assert (SA : shape_at h' a sh) by (exists b'; auto).
      inversion Ch as [f i Hi|f ps key p Po J|f ps key p Po J|sl e l m Hl J|hd0]; subst.
      * apply t_step. left. exact (ds_child _ _ _ _ SA NR (ch_items _ _ _ Hi)).
      * destruct Po as [[_ ->]|(m & Om & Po)]; [destruct J|]. destruct (R2 _ _ Po) as (l' & Gl & Fl). destruct (leads_entry _ _ _ _ _ _ Fl J) as (p' & J' & Rc).
        refine (ct_rt _ _ _ _ _ (leads_chain _ _ _ _ Rc)). left. refine (ds_child _ _ _ _ SA NR (ch_prop _ _ l' key p' _ J')). right. eauto.
      * destruct Po as [[_ ->]|(m & Om & Po)]; [destruct J|]. destruct (R2 _ _ Po) as (l' & Gl & Fl). destruct (leads_entry _ _ _ _ _ _ Fl J) as (p' & J' & Rc).
        refine (ct_rt _ _ _ _ _ (leads_chain _ _ _ _ Rc)). left. refine (ds_child _ _ _ _ SA NR (ch_pprop _ _ l' key p' _ J')). right. eauto.
      * destruct (R3 _ _ Hl) as (l' & Gl & Fl). destruct (leads_item _ _ _ _ _ Fl J) as (x' & J' & Rc).
        refine (ct_rt _ _ _ _ _ (leads_chain _ _ _ _ Rc)). left. exact (ds_child _ _ _ _ SA NR (ch_member _ _ _ _ _ Gl J')).
      * now destruct (NR c).
    + injection E as ->. inversion Ch as [f0 i0 Hi| | | |]; subst. rewrite Ei in Hi. injection Hi as <-.
      refine (ct_rt _ _ _ _ _ (leads_chain _ _ _ _ Rc)). left. refine (ds_child _ _ _ _ (ex_intro _ b' (conj G' E')) _ (ch_items h' (set_items (Some i') f) i' eq_refl)). discriminate.
  - destruct (R1 _ _ G) as (b' & G' & B'). pose proof (brel_fdefs _ _ _ _ B') as Ef. destruct (R2 _ _ Gm) as (l' & Gl & Fl). destruct (leads_entry _ _ _ _ _ _ Fl J) as (p' & J' & Rc).
    refine (ct_rt _ _ _ _ _ (leads_chain _ _ _ _ Rc)). left. rewrite <- Ef in Gl. exact (ds_fdef _ _ _ _ _ _ G' Gl J').
Qed.
Lemma path_redir k h h' a c : redir k h h' -> clos_trans addr (descends h) a c -> clos_trans addr (leads h') a c.
Proof.
  intros R. induction 1 as [x y D|x y z _ IH1 _ IH2]; [exact (leads_redir _ _ _ _ _ R (or_introl D))|exact (t_trans _ _ _ _ _ IH1 IH2)].
Qed.
Lemma leads_path_redir k h h' a c : redir k h h' -> clos_trans addr (leads h) a c -> clos_trans addr (leads h') a c.
Proof.
  intros R. induction 1 as [x y D|x y z _ IH1 _ IH2]; [exact (leads_redir _ _ _ _ _ R D)|exact (t_trans _ _ _ _ _ IH1 IH2)].
Qed.

(** Every new base of the heap after the walk is a recursive shape for a type that
    was flagged before, or that contains itself. *)
Lemma mark_all_back n l s r s' x b : maps_keyed (heap s) -> mark_all n l s = (r, s') -> List.length (heap s) <= x -> get_base (heap s') x = Some b ->
  exists hd, b_shape b = Some (SRec hd) /\ (flag (heap s) hd = true \/ contains_itself (heap s') hd).
Proof.
  intros K H Lx G. destruct (mark_all_good n l s r s' K H) as [(_ & k & R) _].
  assert (Kp : kept (heap s) (fun y => flag (heap s) y = true) (heap s')).
  { refine (mark_all_kept _ _ _ n l s r s' eq_refl H). intros y Fy. split; [exact Fy|]. unfold flag, get_base in Fy. destruct (nth_error (heap s) y) eqn:N; [|discriminate].
    apply nth_error_Some. congruence. }
  apply get_base_nth in G. destruct (kt_new _ _ _ Kp _ _ Lx G) as (hd & Sh & Ri & _). exists hd. split; [exact Sh|].
  destruct Ri as [Ri|Ri]; [now left|]. right. exact (path_redir _ _ _ _ _ R Ri).
Qed.
