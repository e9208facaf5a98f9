(** The types that recursive shapes stand for are of finite descent, like the
    types that were walked (C59). *)
From Coq Require Import ZArith List String Bool Lia.
From Verif Require Import Base Scalars Heap Spec_Validate Spec_Mark Heap_lemmas Mark_proofs Mark_values.
Import ListNotations.
Open Scope string_scope.
Open Scope list_scope.
Open Scope nat_scope.

Definition tip (h : list cell) (x : addr) : Prop := exists hd, leaf h x hd.

Definition cut_shape (h' : list cell) (o o' : option shape) : Prop :=
  o' = o \/ exists f f' i', o = Some (SArray f) /\ o' = Some (SArray f') /\ a_items f' = Some i' /\ (tip h' i' \/ a_items f = Some i').
Definition cut_entry (h' : list cell) (e e' : string * prop) : Prop :=
  fst e' = fst e /\ (tip h' (p_base (snd e')) \/ p_base (snd e') = p_base (snd e)).

(** Some references have been redirected to recursive shapes. *)
Record cut (h h' : list cell) : Prop := {
  cu_base : forall a b, get_base h a = Some b -> exists b', get_base h' a = Some b' /\ b_fdefs b' = b_fdefs b /\ b_unwrapped b' = b_unwrapped b /\ cut_shape h' (b_shape b) (b_shape b');
  cu_props : forall a l, get_props h a = Some l -> exists l', get_props h' a = Some l' /\ Forall2 (cut_entry h') l l';
  cu_slice : forall a l, get_slice h a = Some l -> exists l', get_slice h' a = Some l' /\ Forall2 (fun y y' => tip h' y' \/ y' = y) l l'
}.

Lemma tip_cut h h' x : cut h h' -> tip h x -> tip h' x.
Proof.
  intros C (hd & b & G & S & F). destruct (cu_base _ _ C _ _ G) as (b' & G' & E & Eu & Cs). destruct (cu_props _ _ C _ _ F) as (l' & F' & Q).
  exists hd, b'. split; [exact G'|]. split.
  - destruct Cs as [->|(f & _ & _ & X & _)]; [exact S|congruence].
  - rewrite E. inversion Q; subst. exact F'.
Qed.
Lemma F2_refl {A} (R : A -> A -> Prop) : (forall x, R x x) -> forall l, Forall2 R l l.
Proof. intros H l. induction l; constructor; auto. Qed.
Lemma cut_refl h : cut h h.
Proof.
  split.
  - intros a b G. exists b. split; [exact G|]. split; [reflexivity|]. split; [reflexivity|now left].
  - intros a l G. exists l. split; [exact G|]. apply F2_refl. intros x. split; auto.
  - intros a l G. exists l. split; [exact G|]. apply F2_refl. auto.
Qed.
Lemma F2_trans {A} (R1 R2 R3 : A -> A -> Prop) : (forall x y z, R1 x y -> R2 y z -> R3 x z) -> forall l1 l2 l3, Forall2 R1 l1 l2 -> Forall2 R2 l2 l3 -> Forall2 R3 l1 l3.
Proof. intros H l1 l2 l3 A1. revert l3. induction A1 as [|x y l l' Q _ IH]; intros l3 B; inversion B; subst; constructor; eauto. Qed.
Lemma cut_trans h1 h2 h3 : cut h1 h2 -> cut h2 h3 -> cut h1 h3.
Proof.
  intros A B. split.
  - intros a b G. destruct (cu_base _ _ A _ _ G) as (b1 & G1 & E1 & U1 & S1). destruct (cu_base _ _ B _ _ G1) as (b2 & G2 & E2 & U2 & S2).
    exists b2. split; [exact G2|]. split; [congruence|]. split; [congruence|].
    destruct S1 as [S1|(f & f1 & i1 & X1 & X2 & X3 & X4)].
    + rewrite S1 in S2. exact S2.
    + right. destruct S2 as [S2|(g & f2 & i2 & Y1 & Y2 & Y3 & Y4)].
      * exists f, f1, i1. rewrite S2. repeat (split; [assumption|]). destruct X4 as [X4|X4]; [left; exact (tip_cut _ _ _ B X4)|now right].
      * exists f, f2, i2. split; [exact X1|]. split; [exact Y2|]. split; [exact Y3|]. destruct Y4 as [Y4|Y4]; [now left|].
        assert (g = f1) by congruence. subst g. rewrite X3 in Y4. injection Y4 as <-.
        destruct X4 as [X4|X4]; [left; exact (tip_cut _ _ _ B X4)|now right].
  - intros a l G. destruct (cu_props _ _ A _ _ G) as (l1 & G1 & Q1). destruct (cu_props _ _ B _ _ G1) as (l2 & G2 & Q2).
    exists l2. split; [exact G2|]. refine (F2_trans _ _ _ _ _ _ _ Q1 Q2). intros x y z (E1 & D1) (E2 & D2). split; [congruence|].
    destruct D2 as [D2|D2]; [now left|]. rewrite D2. destruct D1 as [D1|D1]; [left; exact (tip_cut _ _ _ B D1)|now right].
  - intros a l G. destruct (cu_slice _ _ A _ _ G) as (l1 & G1 & Q1). destruct (cu_slice _ _ B _ _ G1) as (l2 & G2 & Q2).
    exists l2. split; [exact G2|]. refine (F2_trans _ _ _ _ _ _ _ Q1 Q2). intros x y z D1 D2.
    destruct D2 as [D2|D2]; [now left|]. rewrite D2. destruct D1 as [D1|D1]; [left; exact (tip_cut _ _ _ B D1)|now right].
Qed.

Lemma tip_ends h x : tip h x -> ends h x. Proof. intros (hd & L). exact (leaf_ends _ _ _ L). Qed.
Lemma F2_back {A B} (R : A -> B -> Prop) l l' y : Forall2 R l l' -> In y l' -> exists x, In x l /\ R x y.
Proof. induction 1 as [|x z l l' Q _ IH]; [intros []|]. intros [<-|J]; [exists x; split; [now left|exact Q]|]. destruct (IH J) as (w & W & Q'). exists w. split; [now right|exact Q']. Qed.
Lemma cut_props_of h h' o l : cut h h' -> props_of h o l -> exists l', props_of h' o l' /\ Forall2 (cut_entry h') l l'.
Proof.
  intros C [[-> ->]|(m & -> & G)].
  - exists []. split; [now left|constructor].
  - destruct (cu_props _ _ C _ _ G) as (l' & G' & Q). exists l'. split; [right; exists m; auto|exact Q].
Qed.
Lemma props_of_one h o l l' : props_of h o l -> props_of h o l' -> l = l'.
Proof. intros [[-> ->]|(m & -> & G)] [[X ->]|(m' & X & G')]; try discriminate; congruence. Qed.

Lemma ends_cut h h' a : cut h h' -> ends h a -> ends h' a.
Proof.
  intros C. induction 1 as [a b m G F _ IH1 Co _ IH2 Un].
  destruct (cu_base _ _ C _ _ G) as (b' & G' & E & Eu & Cs). destruct (cu_props _ _ C _ _ F) as (m' & F' & Q).
  econstructor; [exact G'|rewrite E; exact F'| | | |].
  - intros k p J. destruct (F2_back _ _ _ _ Q J) as ([k0 p0] & J0 & _ & [D|D]); [exact (tip_ends _ _ D)|]. cbn in D. rewrite D. exact (IH1 _ _ J0).
  - intros sh X N. destruct Cs as [Cs|(f & f' & i' & _ & X2 & _)].
    + rewrite Cs in X. pose proof (Co sh X N) as K. destruct sh; cbn [conts] in *; auto.
      * destruct K as ((l1 & K1) & l2 & K2). split; [destruct (cut_props_of _ _ _ _ C K1) as (l & P & _)|destruct (cut_props_of _ _ _ _ C K2) as (l & P & _)]; exists l; exact P.
      * destruct K as (l & K). destruct (cu_slice _ _ C _ _ K) as (l' & K' & _). eauto.
    + rewrite X2 in X. injection X as <-. exact Logic.I.
  - intros sh c X N Ch. destruct Cs as [Cs|(f & f' & i' & X1 & X2 & X3 & X4)].
    + rewrite Cs in X. pose proof (Co sh X N) as K. pose proof (IH2 sh) as J2. destruct Ch as [f i Hi|f ps k p Hp J|f ps k p Hp J|sl e l y Hl J|hd].
      * apply (J2 _ X N). now constructor.
      * destruct K as ((l1 & K1) & _). destruct (cut_props_of _ _ _ _ C K1) as (l & P & Q'). rewrite (props_of_one _ _ _ _ Hp P) in J.
        destruct (F2_back _ _ _ _ Q' J) as ([k0 p0] & J0 & _ & [D|D]); [exact (tip_ends _ _ D)|]. cbn in D. rewrite D. apply (J2 _ X N). exact (ch_prop _ _ _ _ _ K1 J0).
      * destruct K as (_ & l1 & K1). destruct (cut_props_of _ _ _ _ C K1) as (l & P & Q'). rewrite (props_of_one _ _ _ _ Hp P) in J.
        destruct (F2_back _ _ _ _ Q' J) as ([k0 p0] & J0 & _ & [D|D]); [exact (tip_ends _ _ D)|]. cbn in D. rewrite D. apply (J2 _ X N). exact (ch_pprop _ _ _ _ _ K1 J0).
      * destruct K as (l1 & K1). destruct (cu_slice _ _ C _ _ K1) as (l' & P & Q'). assert (l = l') by congruence. subst l'.
        destruct (F2_back _ _ _ _ Q' J) as (y0 & J0 & [D|D]); [exact (tip_ends _ _ D)|]. subst y0. apply (J2 _ X N). exact (ch_member _ _ _ _ _ K1 J0).
      * exfalso. exact (N hd eq_refl).
    + rewrite X2 in X. injection X as <-. inversion Ch; subst. assert (c = i') by congruence. subst c. destruct X4 as [X4|X4]; [exact (tip_ends _ _ X4)|].
      apply (IH2 _ _ X1); [intros hd; discriminate|now constructor].
  - intros N. rewrite Eu. apply Un. intros hd X. destruct Cs as [Cs|(f & f' & i' & X1 & _)]; [apply (N hd); congruence|congruence].
Qed.

(** The heads of recursive shapes end, except the ones the walk is in. *)
Definition heads (ex : addr -> Prop) (h : list cell) : Prop :=
  forall x hd, shape_at h x (SRec hd) -> flag h hd = true \/ ex hd \/ ends h hd.

Lemma heads_step (ex ex' : addr -> Prop) h h' : heads ex h -> cut h h' -> (forall y, ex y -> ex' y \/ flag h' y = true) ->
  (forall y, flag h y = true -> flag h' y = true \/ ex' y) ->
  (forall x hd, shape_at h' x (SRec hd) -> shape_at h x (SRec hd) \/ flag h' hd = true) -> heads ex' h'.
Proof.
  intros H C E F S x hd X. destruct (S _ _ X) as [Y|Y]; [|now left]. destruct (H _ _ Y) as [D|[D|D]].
  - destruct (F _ D); auto.
  - destruct (E _ D); auto.
  - right. right. exact (ends_cut _ _ _ C D).
Qed.

Definition T {A} (ex : addr -> Prop) (m : M A) (Q : A -> list cell -> Prop) : Prop :=
  forall s r s', maps_keyed (heap s) -> heads ex (heap s) -> m s = (Ok r, s') ->
    cut (heap s) (heap s') /\ maps_keyed (heap s') /\ flags_eq s s' /\ heads ex (heap s') /\ Q r (heap s').
Definition any_result {A} : A -> list cell -> Prop := fun _ _ => True.

Lemma T_ret {A} ex (a : A) : T ex (ret a) any_result.
Proof. intros s r s' K H E. injection E as <- <-. split; [apply cut_refl|]. split; [exact K|]. split; [apply flags_refl|]. split; [exact H|exact Logic.I]. Qed.
Lemma T_bind {A B} ex (m : M A) (f : A -> M B) : T ex m any_result -> (forall a, T ex (f a) any_result) -> T ex (bind m f) any_result.
Proof.
  intros Tm Tf s r s' K H E. apply bind_inv in E. destruct E as (a & s1 & E1 & E).
  destruct (Tm _ _ _ K H E1) as (C1 & K1 & F1 & H1 & _). destruct (Tf a _ _ _ K1 H1 E) as (C2 & K2 & F2 & H2 & _).
  split; [exact (cut_trans _ _ _ C1 C2)|]. split; [exact K2|]. split; [exact (flags_trans _ _ _ F1 F2)|]. split; [exact H2|exact Logic.I].
Qed.

(** Writing a base or a container. *)
Lemma cut_base_write h a b b' : get_base h a = Some b -> b_fdefs b' = b_fdefs b -> b_unwrapped b' = b_unwrapped b -> cut_shape (upd a (CBase b') h) (b_shape b) (b_shape b') -> cut h (upd a (CBase b') h).
Proof.
  intros G E Eu S. pose proof G as N. apply get_base_nth in N. split.
  - intros x c Gx. destruct (Nat.eq_dec a x) as [<-|Ne].
    + exists b'. split; [apply get_base_nth; exact (nth_error_upd_eq _ _ _ _ N)|]. assert (c = b) by congruence. subst c. auto.
    + exists c. split; [|split; [reflexivity|split; [reflexivity|now left]]]. apply get_base_nth. rewrite nth_error_upd_neq by auto. now apply get_base_nth.
  - intros x l Gx. exists l. split; [|apply F2_refl; intros y; split; auto]. apply get_props_nth in Gx. apply get_props_nth.
    rewrite nth_error_upd_neq; [exact Gx|]. intros ->. congruence.
  - intros x l Gx. exists l. split; [|apply F2_refl; auto]. apply get_slice_nth in Gx. apply get_slice_nth.
    rewrite nth_error_upd_neq; [exact Gx|]. intros ->. congruence.
Qed.
Lemma tip_base_write h a b b' x : get_base h a = Some b -> (forall hd, b_shape b <> Some (SRec hd)) -> tip h x -> tip (upd a (CBase b') h) x.
Proof.
  intros G N (hd & c & G1 & S & F). assert (Ne : a <> x) by (intros ->; assert (c = b) by congruence; subst c; exact (N _ S)).
  exists hd, c. split; [|split; [exact S|]].
  - apply get_base_nth. rewrite nth_error_upd_neq by auto. now apply get_base_nth.
  - apply get_base_nth in G. apply get_props_nth in F. apply get_props_nth. rewrite nth_error_upd_neq; [exact F|]. intros E. rewrite E in G. congruence.
Qed.
Lemma oset_cut h' k p l : In k (map fst l) -> tip h' (p_base p) -> Forall2 (cut_entry h') l (oset k p l).
Proof.
  intros J X. induction l as [|[k1 z] l IH]; [destruct J|]. cbn [oset]. destruct (String.eqb k k1) eqn:E.
  - constructor; [split; [reflexivity|now left]|]. apply F2_refl. intros y. split; auto.
  - constructor; [split; auto|]. apply IH. destruct J as [J|J]; [cbn in J; subst k1; rewrite String.eqb_refl in E; discriminate|exact J].
Qed.
Lemma F2_keys h' l l' : Forall2 (cut_entry h') l l' -> map fst l' = map fst l.
Proof. induction 1 as [|x y l l' (E & _) _ IH]; cbn [map]; congruence. Qed.
Lemma tip_props_write h m l k p x : get_props h m = Some l -> l <> [] -> tip h x -> tip (upd m (CProps (oset k p l)) h) x.
Proof.
  intros G N (hd & c & G1 & S & F). assert (Nt := G). apply get_props_nth in Nt. exists hd, c. split; [|split; [exact S|]].
  - apply get_base_nth in G1. apply get_base_nth. rewrite nth_error_upd_neq; [exact G1|]. intros ->. congruence.
  - apply get_props_nth in F. apply get_props_nth. rewrite nth_error_upd_neq; [exact F|]. intros E. rewrite E in Nt. congruence.
Qed.
Lemma tip_slice_write h m l l' x : get_slice h m = Some l -> tip h x -> tip (upd m (CSlice l') h) x.
Proof.
  intros G (hd & c & G1 & S & F). assert (Nt := G). apply get_slice_nth in Nt. exists hd, c. split; [|split; [exact S|]].
  - apply get_base_nth in G1. apply get_base_nth. rewrite nth_error_upd_neq; [exact G1|]. intros ->. congruence.
  - apply get_props_nth in F. apply get_props_nth. rewrite nth_error_upd_neq; [exact F|]. intros E. rewrite E in Nt. congruence.
Qed.
Lemma other_write h m c c0 x sh : nth_error h m = Some c0 -> (forall b, c <> CBase b) -> shape_at (upd m c h) x sh -> shape_at h x sh.
Proof.
  intros N B (b & G & S). exists b. split; [|exact S]. apply get_base_nth in G. apply get_base_nth.
  destruct (Nat.eq_dec m x) as [->|Ne]; [rewrite (nth_error_upd_eq _ _ _ _ N) in G; injection G as ->; now destruct (B b)|now rewrite nth_error_upd_neq in G by auto].
Qed.

Lemma T_props s r s' ex m k p x l : maps_keyed (heap s) -> heads ex (heap s) -> tip (heap s) x -> get_props (heap s) m = Some l -> In k (map fst l) ->
  props_set m k (set_pbase x p) s = (Ok r, s') -> cut (heap s) (heap s') /\ maps_keyed (heap s') /\ flags_eq s s' /\ heads ex (heap s').
Proof.
  intros K H X G J E. pose proof (kf_props_set _ _ _ _ _ _ E) as Fl. unfold props_set in E. apply rd_run in E.
  destruct E as [(l0 & G0 & E)|[E _]]; [|discriminate]. assert (l0 = l) by congruence. subst l0.
  unfold Heap.write in E. injection E as _ <-. cbn [heap]. set (p' := set_pbase x p) in *. assert (Px : p_base p' = x) by (destruct p; reflexivity).
  assert (Nl : l <> []) by (intros ->; destruct J).
  assert (Nt := G). apply get_props_nth in Nt.
  assert (Tp : tip (upd m (CProps (oset k p' l)) (heap s)) (p_base p')) by (rewrite Px; apply tip_props_write; assumption).
  pose proof (oset_cut _ _ _ _ J Tp) as Q.
  assert (C : cut (heap s) (upd m (CProps (oset k p' l)) (heap s))).
  { split.
    - intros y b Gy. exists b. split; [|split; [reflexivity|split; [reflexivity|now left]]]. apply get_base_nth in Gy. apply get_base_nth. rewrite nth_error_upd_neq; [exact Gy|]. intros ->. congruence.
    - intros y l1 Gy. destruct (Nat.eq_dec m y) as [<-|Ne].
      + assert (l1 = l) by congruence. subst l1. exists (oset k p' l). split; [apply get_props_nth; exact (nth_error_upd_eq _ _ _ _ Nt)|exact Q].
      + exists l1. split; [|apply F2_refl; intros z; split; auto]. apply get_props_nth in Gy. apply get_props_nth. now rewrite nth_error_upd_neq by auto.
    - intros y l1 Gy. exists l1. split; [|apply F2_refl; auto]. apply get_slice_nth in Gy. apply get_slice_nth. rewrite nth_error_upd_neq; [exact Gy|]. intros ->. congruence. }
  split; [exact C|]. split; [apply keyed_write_props; [exact K|rewrite (F2_keys _ _ _ Q); exact (K _ _ G)]|]. split; [exact Fl|].
  refine (heads_step ex ex _ _ H C (fun y D => or_introl D) (fun y D => or_introl _) _).
  - pose proof (Fl y) as Z. cbn [heap] in Z. congruence.
  - intros y hd S. left. refine (other_write _ _ _ _ _ _ Nt _ S). discriminate.
Qed.

Lemma F2_upd {A} (R : A -> A -> Prop) l i x : (forall y, R y y) -> (forall y, R y x) -> Forall2 R l (upd i x l).
Proof. intros H X. revert i. induction l as [|y l IH]; intros [|i]; cbn [upd]; try constructor; auto. now apply F2_refl. Qed.

Lemma T_slice s r s' ex m i x : maps_keyed (heap s) -> heads ex (heap s) -> tip (heap s) x ->
  slice_set m i x s = (Ok r, s') -> cut (heap s) (heap s') /\ maps_keyed (heap s') /\ flags_eq s s' /\ heads ex (heap s').
Proof.
  intros K H X E. pose proof (kf_slice_set _ _ _ _ _ _ E) as Fl. unfold slice_set in E. apply rd_run in E.
  destruct E as [(l & G & E)|[E _]]; [|discriminate]. destruct (nth_error l i) as [y0|]; [|discriminate].
  unfold Heap.write in E. injection E as _ <-. cbn [heap]. assert (Nt := G). apply get_slice_nth in Nt.
  assert (Tp : tip (upd m (CSlice (upd i x l)) (heap s)) x) by (eapply tip_slice_write; eassumption).
  assert (C : cut (heap s) (upd m (CSlice (upd i x l)) (heap s))).
  { split.
    - intros y b Gy. exists b. split; [|split; [reflexivity|split; [reflexivity|now left]]]. apply get_base_nth in Gy. apply get_base_nth. rewrite nth_error_upd_neq; [exact Gy|]. intros ->. congruence.
    - intros y l1 Gy. exists l1. split; [|apply F2_refl; intros z; split; auto]. apply get_props_nth in Gy. apply get_props_nth. rewrite nth_error_upd_neq; [exact Gy|]. intros ->. congruence.
    - intros y l1 Gy. destruct (Nat.eq_dec m y) as [<-|Ne].
      + assert (l1 = l) by congruence. subst l1. exists (upd i x l). split; [apply get_slice_nth; exact (nth_error_upd_eq _ _ _ _ Nt)|]. apply F2_upd; auto.
      + exists l1. split; [|apply F2_refl; auto]. apply get_slice_nth in Gy. apply get_slice_nth. now rewrite nth_error_upd_neq by auto. }
  split; [exact C|]. split; [now apply keyed_write_slice|]. split; [exact Fl|].
  refine (heads_step ex ex _ _ H C (fun y D => or_introl D) (fun y D => or_introl _) _).
  - pose proof (Fl y) as Z. cbn [heap] in Z. congruence.
  - intros y hd S. left. refine (other_write _ _ _ _ _ _ Nt _ S). discriminate.
Qed.

Lemma T_items s r s' ex a x : maps_keyed (heap s) -> heads ex (heap s) -> tip (heap s) x ->
  upd_arr a (set_items (Some x)) s = (Ok r, s') -> cut (heap s) (heap s') /\ maps_keyed (heap s') /\ flags_eq s s' /\ heads ex (heap s').
Proof.
  intros K H X E. pose proof (kf_upd_arr _ _ _ _ _ E) as Fl. unfold upd_arr in E. apply rd_run in E.
  destruct E as [(b & G & E)|[E _]]; [|discriminate].
  assert (Same : s' = s -> cut (heap s) (heap s') /\ maps_keyed (heap s') /\ flags_eq s s' /\ heads ex (heap s')).
  { intros ->. split; [apply cut_refl|]. split; [exact K|]. split; [apply flags_refl|exact H]. }
  destruct (b_shape b) as [sh|] eqn:Sh; [|injection E as _ <-; auto]. destruct sh; try (injection E as _ <-; auto; fail).
  unfold Heap.write in E. injection E as _ <-. cbn [heap]. clear Same.
  set (b' := set_shape (Some (SArray (set_items (Some x) f))) b) in *.
  assert (Tp : tip (upd a (CBase b') (heap s)) x) by (apply (tip_base_write _ _ b); [exact G|rewrite Sh; discriminate|exact X]).
  assert (C : cut (heap s) (upd a (CBase b') (heap s))).
  { apply (cut_base_write _ _ b); [exact G|reflexivity|reflexivity|]. right. exists f, (set_items (Some x) f), x.
    split; [exact Sh|]. split; [reflexivity|]. split; [reflexivity|]. left. exact Tp. }
  split; [exact C|]. split; [now apply keyed_write_base|]. split; [exact Fl|].
  refine (heads_step ex ex _ _ H C (fun y D => or_introl D) (fun y D => or_introl _) _).
  - pose proof (Fl y) as Z. cbn [heap] in Z. congruence.
  - intros y hd (c & Gy & S). left. apply get_base_nth in Gy. apply get_base_nth in G. destruct (Nat.eq_dec a y) as [<-|Ne].
    + rewrite (nth_error_upd_eq _ _ _ _ G) in Gy. injection Gy as <-. discriminate S.
    + rewrite nth_error_upd_neq in Gy by auto. exists c. split; [now apply get_base_nth|exact S].
Qed.

Section Rec.
Variable n : nat.
Variable rec : addr -> M (option addr).
Variable ex : addr -> Prop.
Hypothesis Rec : forall c, T ex (rec c) (fun o h => forall y, o = Some y -> tip h y).


Lemma then_T {A} s s1 r s' (m : M A) : cut (heap s) (heap s1) -> maps_keyed (heap s1) -> flags_eq s s1 -> heads ex (heap s1) ->
  T ex m any_result -> m s1 = (Ok r, s') ->
  cut (heap s) (heap s') /\ maps_keyed (heap s') /\ flags_eq s s' /\ heads ex (heap s') /\ any_result r (heap s').
Proof.
  intros C K F H Tm E. destruct (Tm _ _ _ K H E) as (C2 & K2 & F2 & H2 & _).
  split; [exact (cut_trans _ _ _ C C2)|]. split; [exact K2|]. split; [exact (flags_trans _ _ _ F F2)|]. split; [exact H2|exact Logic.I].
Qed.

Lemma T_map m : T ex (mark_map n rec m) any_result.
Proof.
  unfold mark_map. generalize 0. induction n as [|k IH]; intros i; cbn [loop_props]; [discriminate|].
  intros s r s' K H E. apply rd_run in E. destruct E as [(l & G & E)|[E _]]; [|discriminate].
  destruct (nth_error l i) as [[key p]|] eqn:Ni; [|exact (T_ret ex tt _ _ _ K H E)].
  apply bind_inv in E. destruct E as ([] & s2 & E2 & E). apply bind_inv in E2. destruct E2 as (o & s1 & E1 & E2).
  destruct (Rec _ _ _ _ K H E1) as (C1 & K1 & F1 & H1 & Q1). destruct o as [x|].
  2:{ injection E2 as <-. exact (then_T _ _ _ _ _ C1 K1 F1 H1 (IH (S i)) E). }
  destruct (cu_props _ _ C1 _ _ G) as (l1 & G1 & Fl).
  assert (J : In key (map fst l1)) by (rewrite (F2_keys _ _ _ Fl); apply (in_map fst _ (key, p)); exact (nth_error_In _ _ Ni)).
  destruct (T_props _ _ _ ex _ _ _ _ _ K1 H1 (Q1 x eq_refl) G1 J E2) as (C2 & K2 & F2 & H2).
  exact (then_T _ _ _ _ _ (cut_trans _ _ _ C1 C2) K2 (flags_trans _ _ _ F1 F2) H2 (IH (S i)) E).
Qed.

Lemma T_loop_slice sl : T ex (loop_slice n sl 0 (fun i item => bind (rec item) (fun r => match r with Some x => slice_set sl i x | None => ret tt end))) any_result.
Proof.
  generalize 0. induction n as [|k IH]; intros i; cbn [loop_slice]; [discriminate|].
  intros s r s' K H E. apply rd_run in E. destruct E as [(l & G & E)|[E _]]; [|discriminate].
  destruct (nth_error l i) as [y|] eqn:Ni; [|exact (T_ret ex tt _ _ _ K H E)].
  apply bind_inv in E. destruct E as ([] & s2 & E2 & E). apply bind_inv in E2. destruct E2 as (o & s1 & E1 & E2).
  destruct (Rec _ _ _ _ K H E1) as (C1 & K1 & F1 & H1 & Q1). destruct o as [x|].
  2:{ injection E2 as <-. exact (then_T _ _ _ _ _ C1 K1 F1 H1 (IH (S i)) E). }
  destruct (T_slice _ _ _ ex _ _ _ K1 H1 (Q1 x eq_refl) E2) as (C2 & K2 & F2 & H2).
  exact (then_T _ _ _ _ _ (cut_trans _ _ _ C1 C2) K2 (flags_trans _ _ _ F1 F2) H2 (IH (S i)) E).
Qed.

Lemma T_optmap o : T ex (mark_optmap n rec o) any_result.
Proof. destruct o; [apply T_map|apply T_ret]. Qed.

Lemma T_shape a : T ex (mark_shape n rec a) any_result.
Proof.
  intros s r s' K H E. unfold mark_shape in E. apply rd_run in E. destruct E as [(b & G & E)|[E _]]; [|discriminate].
  destruct (b_shape b) as [sh|]; [|exact (T_ret ex tt _ _ _ K H E)].
  destruct sh; try exact (T_ret ex tt _ _ _ K H E).
  - destruct (a_items f) as [i|]; [|exact (T_ret ex tt _ _ _ K H E)].
    apply bind_inv in E. destruct E as (o & s1 & E1 & E). destruct (Rec _ _ _ _ K H E1) as (C1 & K1 & F1 & H1 & Q1). destruct o as [x|].
    + destruct (T_items _ _ _ ex _ _ K1 H1 (Q1 x eq_refl) E) as (C2 & K2 & F2 & H2).
      split; [exact (cut_trans _ _ _ C1 C2)|]. split; [exact K2|]. split; [exact (flags_trans _ _ _ F1 F2)|]. split; [exact H2|exact Logic.I].
    + exact (then_T _ _ _ _ _ C1 K1 F1 H1 (T_ret ex tt) E).
  - exact (T_bind ex _ _ (T_optmap _) (fun _ => T_optmap _) _ _ _ K H E).
  - exact (T_loop_slice _ _ _ _ K H E).
Qed.
End Rec.

Lemma T_recursive ex a s r s' : maps_keyed (heap s) -> heads ex (heap s) -> flag (heap s) a = true -> make_recursive a s = (Ok r, s') ->
  cut (heap s) (heap s') /\ maps_keyed (heap s') /\ flags_eq s s' /\ heads ex (heap s') /\ tip (heap s') r.
Proof.
  intros K H F E. destruct (make_recursive_good _ _ _ _ K E) as [[K' _] Lf]. pose proof (kf_make_recursive _ _ _ _ E) as Fl.
  apply rd_run in E. destruct E as [(hb & G & E)|[E _]]; [|discriminate].
  destruct (make_base_run (b_name hb) (b_loc hb) s) as (nb & s1 & E1 & Eh & Ef). rewrite (bind_ok _ _ _ _ _ E1) in E.
  set (x := List.length (heap s) + 3) in *.
  assert (Gx : get_base (heap s1) x = Some nb).
  { apply get_base_nth. rewrite Eh, nth_error_app2 by (unfold x; lia). replace (x - List.length (heap s)) with 3 by (unfold x; lia). reflexivity. }
  unfold upd_base, bind, rd, Heap.write, ret in E. rewrite Gx in E. set (nb' := Base _ _ _ "recursive" _ _ _ _ _ _ _ _ _ _ _ _ _ _ _) in *.
  assert (Hh : upd x (CBase nb') (heap s1) = heap s ++ [CFacets []; CProps []; CSlice []; CBase nb']).
  { rewrite Eh, upd_app_r by (unfold x; lia). f_equal. replace (x - List.length (heap s)) with 3 by (unfold x; lia). reflexivity. }
  injection E as <- <-. cbn [heap] in *. rewrite Hh in *.
  assert (Nw : forall y c, nth_error (heap s) y = Some c -> nth_error (heap s ++ [CFacets []; CProps []; CSlice []; CBase nb']) y = Some c).
  { intros y c N. rewrite nth_error_app1; [exact N|]. exact (nth_error_lt _ _ _ N). }
  assert (C : cut (heap s) (heap s ++ [CFacets []; CProps []; CSlice []; CBase nb'])).
  { split.
    - intros y b Gy. exists b. split; [|split; [reflexivity|split; [reflexivity|now left]]]. apply get_base_nth, Nw. now apply get_base_nth.
    - intros y l Gy. exists l. split; [|apply F2_refl; intros z; split; auto]. apply get_props_nth, Nw. now apply get_props_nth.
    - intros y l Gy. exists l. split; [|apply F2_refl; auto]. apply get_slice_nth, Nw. now apply get_slice_nth. }
  assert (Fl' : forall y, flag (heap s ++ [CFacets []; CProps []; CSlice []; CBase nb']) y = flag (heap s) y).
  { intros y. pose proof (Fl y) as Z. cbn [heap] in Z. try rewrite Hh in Z. exact Z. }
  split; [exact C|]. split; [exact K'|]. split; [exact Fl|]. split; [|exists a; exact Lf].
  refine (heads_step ex ex _ _ H C (fun y D => or_introl D) (fun y D => or_introl _) _).
  - rewrite Fl'. exact D.
  - intros y hd (c & Gy & S). apply get_base_nth in Gy. destruct (Nat.lt_ge_cases y (List.length (heap s))) as [L|L].
    + rewrite nth_error_app1 in Gy by exact L. left. exists c. split; [now apply get_base_nth|exact S].
    + rewrite nth_error_app2 in Gy by exact L. destruct (y - List.length (heap s)) as [|[|[|[|q]]]]; cbn [nth_error] in Gy; try discriminate.
      * injection Gy as <-. cbn in S. injection S as <-. right. rewrite Fl'. exact F.
      * destruct q; discriminate.
Qed.

Lemma set_visited_run a v s r s' : upd_base a (set_visited v) s = (Ok r, s') -> exists b, get_base (heap s) a = Some b /\ heap s' = upd a (CBase (set_visited v b)) (heap s).
Proof. intros E. apply rd_run in E. destruct E as [(b & G & E)|[E _]]; [|discriminate]. injection E as _ <-. exists b. split; [exact G|reflexivity]. Qed.
Lemma visited_cut a v s r s' : upd_base a (set_visited v) s = (Ok r, s') -> cut (heap s) (heap s').
Proof. intros E. destruct (set_visited_run _ _ _ _ _ E) as (b & G & ->). apply (cut_base_write _ _ b); [exact G|destruct b; reflexivity|destruct b; reflexivity|left; destruct b; reflexivity]. Qed.
Lemma visited_shape a v s r s' x sh : upd_base a (set_visited v) s = (Ok r, s') -> shape_at (heap s') x sh -> shape_at (heap s) x sh.
Proof.
  intros E (c & Gx & S). destruct (set_visited_run _ _ _ _ _ E) as (b & G & Eh). rewrite Eh in Gx. apply get_base_nth in Gx. pose proof G as N. apply get_base_nth in N.
  destruct (Nat.eq_dec a x) as [<-|Ne].
  - rewrite (nth_error_upd_eq _ _ _ _ N) in Gx. injection Gx as <-. exists b. split; [exact G|]. destruct b; exact S.
  - rewrite nth_error_upd_neq in Gx by auto. exists c. split; [now apply get_base_nth|exact S].
Qed.
Lemma visited_flag a v s r s' x : upd_base a (set_visited v) s = (Ok r, s') -> flag (heap s') x = if Nat.eqb a x then v else flag (heap s) x.
Proof.
  intros E. destruct (set_visited_run _ _ _ _ _ E) as (b & G & ->). rewrite (flag_upd_base _ _ _ _ _ G).
  destruct (Nat.eqb_spec a x) as [->|D]; [destruct b; reflexivity|reflexivity].
Qed.
Lemma visited_keyed a v s r s' : maps_keyed (heap s) -> upd_base a (set_visited v) s = (Ok r, s') -> maps_keyed (heap s').
Proof. intros K E. exact (proj1 (set_visited_good _ _ _ _ _ K E)). Qed.

Lemma T_mark n : forall ex a, T ex (mark n a) (fun o h => forall y, o = Some y -> tip h y).
Proof.
  induction n as [|n IH]; intros ex a s r s' K H E; [discriminate|].
  pose proof (mark_good _ _ _ _ _ K E) as [_ Oc]. pose proof (mark_flags _ _ _ _ _ E) as Fl.
  cbn [mark] in E. apply rd_run in E. destruct E as [(b & G & E)|[E _]]; [|discriminate].
  destruct (negb (b_unwrapped b)); [discriminate|]. destruct (b_visited b) eqn:V.
  { apply bind_inv in E. destruct E as (x & s1 & E1 & E). injection E as <- <-.
    destruct (T_recursive ex _ _ _ _ K H ltac:(unfold flag; now rewrite G) E1) as (C & K1 & F1 & H1 & Tx).
    split; [exact C|]. split; [exact K1|]. split; [exact F1|]. split; [exact H1|]. intros y [= <-]. exact Tx. }
  apply bind_inv in E. destruct E as ([] & s1 & E1 & E). apply bind_inv in E. destruct E as ([] & s2 & E2 & E).
  apply bind_inv in E. destruct E as ([] & s3 & E3 & E). apply rd_run in E. destruct E as [(b' & G' & E)|[E _]]; [|discriminate].
  apply bind_inv in E. destruct E as ([] & s4 & E4 & E). injection E as <- <-. cbn [outcome] in Oc.
  assert (H1 : heads ex (heap s1)).
  { refine (heads_step ex ex _ _ H (visited_cut _ _ _ _ _ E1) (fun y D => or_introl D) (fun y D => or_introl _) (fun x hd S => or_introl (visited_shape _ _ _ _ _ _ _ E1 S))).
    rewrite (visited_flag _ _ _ _ _ _ E1). destruct (Nat.eqb a y); auto. }
  destruct (T_shape n (mark n) ex (IH ex) a _ _ _ (visited_keyed _ _ _ _ _ K E1) H1 E2) as (C2 & K2 & F2 & H2 & _).
  assert (H3 : heads (fun y => ex y \/ y = a) (heap s3)).
  { refine (heads_step ex _ _ _ H2 (visited_cut _ _ _ _ _ E3) (fun y D => or_introl (or_introl D)) _ (fun x hd S => or_introl (visited_shape _ _ _ _ _ _ _ E3 S))).
    intros y D. rewrite (visited_flag _ _ _ _ _ _ E3). destruct (Nat.eqb_spec a y) as [<-|Ne]; auto. }
  destruct (T_map n (mark n) _ (IH _) (b_fdefs b') _ _ _ (visited_keyed _ _ _ _ _ K2 E3) H3 E4) as (C4 & K4 & F4 & H4 & _).
  split.
  { exact (cut_trans _ _ _ (visited_cut _ _ _ _ _ E1) (cut_trans _ _ _ C2 (cut_trans _ _ _ (visited_cut _ _ _ _ _ E3) C4))). }
  split; [exact K4|]. split; [exact Fl|]. split; [|discriminate].
  intros x hd S. destruct (H4 _ _ S) as [D|[[D| ->]|D]]; auto.
Qed.

Lemma T_mark_all n ex : forall l, T ex (mark_all n l) any_result.
Proof.
  induction l as [|a l IH]; [apply T_ret|]. cbn [mark_all]. intros s r s' K H E. apply bind_inv in E. destruct E as (o & s1 & E1 & E).
  destruct (T_mark n ex a _ _ _ K H E1) as (C1 & K1 & F1 & H1 & _). destruct (IH _ _ _ K1 H1 E) as (C2 & K2 & F2 & H2 & _).
  split; [exact (cut_trans _ _ _ C1 C2)|]. split; [exact K2|]. split; [exact (flags_trans _ _ _ F1 F2)|]. split; [exact H2|exact Logic.I].
Qed.

(** After the walk over all types, with no flag set and no recursive shape before. *)
Theorem heads_end n l s s' : maps_keyed (heap s) -> (forall x, flag (heap s) x = false) -> (forall x hd, ~ shape_at (heap s) x (SRec hd)) ->
  mark_all n l s = (Ok tt, s') -> forall x hd, shape_at (heap s') x (SRec hd) -> ends (heap s') hd.
Proof.
  intros K F N E x hd S. destruct (T_mark_all n (fun _ => False) l _ _ _ K ltac:(intros y z Y; destruct (N _ _ Y)) E) as (_ & _ & Fl & H & _).
  destruct (H _ _ S) as [D|[[]|D]]; [rewrite Fl, F in D; discriminate|exact D].
Qed.
Theorem heads_finite n l s s' : maps_keyed (heap s) -> (forall x, flag (heap s) x = false) -> (forall x hd, ~ shape_at (heap s) x (SRec hd)) ->
  mark_all n l s = (Ok tt, s') -> forall x hd, shape_at (heap s') x (SRec hd) -> finite_descent (heap s') hd.
Proof. intros K F N E x hd S. exact (ends_descent _ _ (heads_end n l s s' K F N E x hd S)). Qed.
