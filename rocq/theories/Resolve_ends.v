(** Proofs that resolution ends and does not panic. *)
From Coq Require Import ZArith List String Bool Lia.
From Verif Require Import Base Scalars Heap Heap_lemmas Rdt Resolve Spec_Resolve Resolve_proofs.
Import ListNotations.
Open Scope string_scope.
Open Scope list_scope.
Open Scope nat_scope.

(** * Steps that write one base *)

Definition only (s s' : st) (a : addr) : Prop :=
  frame s s' a /\ forall x, x <> a -> get_base (heap s') x = get_base (heap s) x.

Lemma only_refl s a : only s s a.
Proof. split; [apply frame_refl|auto]. Qed.

Lemma only_trans s s1 s2 a : only s s1 a -> only s1 s2 a -> only s s2 a.
Proof.
  intros [F1 G1] [F2 G2]. split; [eapply frame_trans; eauto|]. intros x N. rewrite G2, G1; auto.
Qed.

Lemma get_base_ge h x : List.length h <= x -> get_base h x = None.
Proof.
  intros L. destruct (get_base h x) eqn:E; auto. apply get_base_lt in E. lia.
Qed.

Lemma upd_base_only a f s r s' b : get_base (heap s) a = Some b -> upd_base a f s = (r, s') ->
  r = Ok tt /\ only s s' a /\ get_base (heap s') a = Some (f b).
Proof.
  intros E H. destruct (upd_base_run _ _ _ _ _ _ E H) as (R & F & L & G). split; auto. split; auto. split; auto.
  intros x N. destruct (Nat.lt_ge_cases x (List.length (heap s))) as [X|X].
  - apply same_base. apply F; auto.
  - rewrite !get_base_ge by lia. auto.
Qed.

Lemma empty_shape_only t s r s' a : empty_shape t s = (r, s') -> a < List.length (heap s) ->
  exists sh, r = Ok sh /\ only s s' a /\ get_base (heap s') a = get_base (heap s) a
    /\ (builtin t = true -> sh <> SUnknown).
Proof.
  intros H La. destruct (String.eqb_spec t "union") as [->|NU].
  - unfold empty_shape in H. simpl in H. unfold bind, alloc, ret in H. injection H as <- <-.
    assert (B : forall x, get_base (heap s ++ [CSlice []]) x = get_base (heap s) x).
    { intros x. unfold get_base. destruct (Nat.lt_ge_cases x (List.length (heap s))) as [X|X].
      - now rewrite nth_error_app1.
      - rewrite nth_error_app2 by lia. destruct (nth_error_None (heap s) x) as [_ Q]. rewrite Q by lia.
        destruct (x - List.length (heap s)) as [|[|k]]; reflexivity. }
    eexists. split; [reflexivity|]. split; [split; [split; simpl|]|].
    + rewrite app_length; simpl; lia.
    + intros x X _. unfold same. simpl. now rewrite nth_error_app1.
    + intros x _. apply B.
    + split; [apply B|]. intros _ X. discriminate X.
  - destruct (empty_shape_run _ _ _ _ H) as (sh & -> & F & U & K). rewrite (U NU) in *. exists sh. split; auto.
    split; [apply only_refl|]. split; auto. intros B X. subst sh. unfold builtin in B.
    apply existsb_exists in B. destruct B as (t' & I & Q). apply String.eqb_eq in Q. subst t'.
    unfold empty_shape in H. simpl in I.
    repeat (destruct I as [<-|I]; [cbn in H; try discriminate H; congruence|]). destruct I.
Qed.

Lemma make_concrete_only a t fs s r s' b : get_base (heap s) a = Some b -> tame fs ->
  make_concrete a t fs s = (r, s') ->
  (r = Ok tt \/ r = Err) /\ only s s' a
  /\ exists sh, get_base (heap s') a = Some (set_shape (Some sh) (set_type t b))
       /\ (builtin t = true -> sh <> SUnknown).
Proof.
  intros E T H. unfold make_concrete in H. pose proof (get_base_lt _ _ _ E) as La.
  destruct (upd_base a (set_type t) s) as [r1 s1] eqn:H1.
  destruct (upd_base_only _ _ _ _ _ _ E H1) as (-> & F1 & E1).
  rewrite (bind_ok _ _ _ _ _ H1) in H. clear H1.
  destruct (empty_shape t s1) as [r2 s2] eqn:H2.
  assert (La1 : a < List.length (heap s1)) by (eapply get_base_lt; eauto).
  destruct (empty_shape_only _ _ _ _ _ H2 La1) as (sh & -> & F2 & E2 & K).
  rewrite (bind_ok _ _ _ _ _ H2) in H. clear H2. rewrite E1 in E2.
  destruct (upd_base a (set_shape (Some sh)) s2) as [r3 s3] eqn:H3.
  destruct (upd_base_only _ _ _ _ _ _ E2 H3) as (-> & F3 & E3).
  rewrite (bind_ok _ _ _ _ _ H3) in H. clear H3.
  assert (F : only s s3 a) by (eapply only_trans; [exact F1|]; eapply only_trans; eauto).
  unfold bind at 1 in H. unfold lift in H.
  assert (C : unmarshal_facets fs sh = Err
              \/ exists sh', unmarshal_facets fs sh = Ok sh' /\ (builtin t = true -> sh' <> SUnknown)).
  { unfold unmarshal_facets. destruct fs as [f|]; [|right; exists sh; auto].
    destruct (T f sh eq_refl) as [X|(sh' & X & N)];
      destruct sh; try (right; eexists; split; [reflexivity|]; solve [auto]); auto;
      right; exists sh'; auto. }
  destruct C as [C|(sh' & C & N)]; rewrite C in H.
  - injection H as <- <-. split; auto. split; auto. exists sh. split; auto.
  - destruct (upd_base_only _ _ _ _ _ _ E3 H) as (-> & F4 & E4). split; auto.
    split; [eapply only_trans; eauto|]. exists sh'. split; auto.
Qed.

Lemma make_base_bases loc s r s' x : make_base "" loc s = (r, s') -> x <> 3 + List.length (heap s) ->
  get_base (heap s') x = get_base (heap s) x.
Proof.
  destruct s as [h sh nx]. unfold make_base, bind, gen_id, alloc, put_shape, ret. simpl. intros H. injection H as <- <-.
  simpl. rewrite <- !app_assoc. simpl. intros N. unfold get_base.
  destruct (Nat.lt_ge_cases x (List.length h)) as [X|X].
  - now rewrite nth_error_app1.
  - rewrite nth_error_app2 by lia. destruct (nth_error_None h x) as [_ Q]. rewrite Q by lia.
    destruct (x - List.length h) as [|[|[|[|k]]]] eqn:K; simpl; auto; [lia|]. destruct k; reflexivity.
Qed.

Lemma make_new_only t loc s r s' : make_new "" t loc s = (r, s') ->
  exists i, r = Ok i /\ i = 3 + List.length (heap s) /\ (forall a, frame s s' a)
    /\ (forall x, x <> i -> get_base (heap s') x = get_base (heap s) x)
    /\ exists b, get_base (heap s') i = Some b /\ b_loc b = loc
         /\ b_inherits b = 2 + List.length (heap s) /\ get_slice (heap s') (b_inherits b) = Some []
         /\ (builtin t = true -> settled b = true).
Proof.
  intros H. destruct (make_new_run _ _ _ _ _ H) as (i & -> & Di & _ & _ & F & b & sh & E & B & Lo & Ih & _ & _).
  exists i. split; auto. split; auto. split; auto.
  unfold make_new in H.
  destruct (make_base_run loc s) as (s1 & R1 & F1 & L1 & b1 & E1 & B1 & Lo1 & I1 & I2 & _).
  rewrite (bind_ok _ _ _ _ _ R1) in H. rewrite <- Di in *.
  destruct (make_concrete i t None s1) as [r2 s2] eqn:H2.
  assert (T : tame None) by (intros f sh' X; discriminate X).
  destruct (make_concrete_only _ _ _ _ _ _ _ E1 T H2) as ([-> | ->] & O2 & sh2 & E2 & K).
  2:{ unfold bind in H. rewrite H2 in H. discriminate H. }
  rewrite (bind_ok _ _ _ _ _ H2) in H. injection H as ->. split.
  { intros x N. rewrite (proj2 O2) by auto. eapply make_base_bases; eauto. rewrite <- Di. auto. }
  exists b. split; auto. split; auto. split; auto. split; [apply B|].
  intros BT. rewrite E2 in E. injection E as <-. unfold settled. simpl. specialize (K BT). destruct sh2; auto.
Qed.

(** * The invariant *)

Section Run.
Variable E : renv.
Variable h0 : list cell.
Hypothesis W : parsed (rv_lookup E) h0.
Hypothesis Tame : forall a, tame (rv_facets E a).

Record inv (h : list cell) : Prop := {
  i_len : List.length h0 <= List.length h;
  i_base : forall x b0, get_base h0 x = Some b0 -> exists b, get_base h x = Some b
    /\ b_loc b = b_loc b0 /\ b_inherits b = b_inherits b0
    /\ (settled b = true
        \/ b_shape b = b_shape b0 /\ b_type b = b_type b0 /\ b_link b = b_link b0
           /\ get_slice h (b_inherits b0) = get_slice h0 (b_inherits b0));
  i_dt : forall l d, get_dt h0 l = Some d -> get_dt h l = Some d;
  i_slice : forall x b, get_base h x = Some b -> exists l, get_slice h (b_inherits b) = Some l;
  i_own : forall x y bx by_, get_base h x = Some bx -> get_base h y = Some by_ ->
    b_inherits bx = b_inherits by_ -> x = y
}.

Lemma inv_start : inv h0.
Proof.
  constructor; auto.
  - intros x b0 G. exists b0. repeat split; auto.
  - intros x b G. destruct (p_parents _ _ W _ _ G) as (ps & P & _). eauto.
  - apply W.
Qed.

Definition later (h h' : list cell) : Prop :=
  List.length h <= List.length h'
  /\ forall x b, get_base h x = Some b -> exists b', get_base h' x = Some b'
       /\ b_loc b' = b_loc b /\ (settled b = true -> settled b' = true).

Lemma later_refl h : later h h.
Proof. split; auto. intros x b G. eauto. Qed.
Lemma later_trans h1 h2 h3 : later h1 h2 -> later h2 h3 -> later h1 h3.
Proof.
  intros [L1 A] [L2 B]. split; [lia|]. intros x b G. destruct (A _ _ G) as (b1 & G1 & X1 & Y1).
  destruct (B _ _ G1) as (b2 & G2 & X2 & Y2). exists b2. split; auto. split; [congruence|auto].
Qed.

Definition settled_at (h : list cell) (x : addr) : Prop := exists b, get_base h x = Some b /\ settled b = true.

Lemma settled_later h h' x : later h h' -> settled_at h x -> settled_at h' x.
Proof. intros [_ L] (b & G & S). destruct (L _ _ G) as (b' & G' & _ & K). exists b'. auto. Qed.

(** One base is written; it is settled afterwards. *)
Lemma step_base s s' a b b' : inv (heap s) -> only s s' a -> get_base (heap s) a = Some b ->
  get_base (heap s') a = Some b' -> b_loc b' = b_loc b -> b_inherits b' = b_inherits b -> settled b' = true ->
  inv (heap s') /\ later (heap s) (heap s').
Proof.
  intros I [[L F] G] Ea Ea' Hl Hi S. 
  assert (SL : forall x l, x <> a -> get_slice (heap s) x = Some l -> get_slice (heap s') x = Some l).
  { intros x l N X. rewrite (same_slice (heap s) (heap s')); auto. apply F; auto.
    apply get_slice_nth in X. eapply nth_error_lt; eauto. }
  assert (NA : forall l, get_slice (heap s) a = Some l -> False).
  { intros l X. apply get_slice_nth in X. apply get_base_nth in Ea. congruence. }
  assert (SI : forall x bx, get_base (heap s) x = Some bx -> exists l, get_slice (heap s) (b_inherits bx) = Some l
               /\ get_slice (heap s') (b_inherits bx) = Some l).
  { intros x bx X. destruct (i_slice _ I _ _ X) as (l & Q). exists l. split; auto. apply SL; auto.
    intros QQ. rewrite QQ in Q. eauto. }
  split; [constructor|split; auto].
  - pose proof (i_len _ I). lia.
  - intros x b0 G0. destruct (i_base _ I _ _ G0) as (b1 & G1 & A1 & A2 & A3).
    destruct (Nat.eq_dec x a) as [->|N].
    + exists b'. rewrite Ea in G1. injection G1 as <-. split; auto. split; [congruence|]. split; [congruence|]. auto.
    + exists b1. rewrite G by auto. split; auto. split; auto. split; auto. destruct A3 as [A3|(A3 & A4 & A5 & A6)]; auto.
      right. repeat split; auto. destruct (SI _ _ G1) as (l & Q1 & Q2). rewrite A2 in Q1, Q2. congruence.
  - intros l d Q. pose proof (i_dt _ I _ _ Q) as Q'. apply get_dt_nth in Q'. apply get_dt_nth.
    destruct (Nat.eq_dec l a) as [->|N]; [apply get_base_nth in Ea; congruence|].
    assert (SM : same (heap s) (heap s') l) by (apply F; [eapply nth_error_lt; eauto|auto]). rewrite SM. exact Q'.
  - intros x bx X. destruct (Nat.eq_dec x a) as [->|N].
    + rewrite Ea' in X. injection X as <-. rewrite Hi. destruct (SI _ _ Ea) as (l & _ & Q). eauto.
    + rewrite G in X by auto. destruct (SI _ _ X) as (l & _ & Q). eauto.
  - assert (K : forall x bx, get_base (heap s') x = Some bx -> exists bx', get_base (heap s) x = Some bx' /\ b_inherits bx' = b_inherits bx).
    { intros x bx X. destruct (Nat.eq_dec x a) as [->|N].
      - rewrite Ea' in X. injection X as <-. eauto.
      - rewrite G in X by auto. eauto. }
    intros x y bx by_ X Y Q. destruct (K _ _ X) as (bx' & X' & QX). destruct (K _ _ Y) as (by' & Y' & QY).
    eapply (i_own _ I); eauto. congruence.
  - intros x bx X. destruct (Nat.eq_dec x a) as [->|N].
    + rewrite Ea in X. injection X as <-. exists b'. auto.
    + exists bx. rewrite G by auto. auto.
Qed.

(** A new base. *)
Lemma step_new t loc s r s' : inv (heap s) -> make_new "" t loc s = (r, s') ->
  exists i, r = Ok i /\ inv (heap s') /\ later (heap s) (heap s') /\ is_base (heap s') i
    /\ (builtin t = true -> settled_at (heap s') i).
Proof.
  intros I H. destruct (make_new_only _ _ _ _ _ H) as (i & -> & Di & F & G & b & Gb & Lo & Ih & Sl & St).
  assert (FF : forall x, x < List.length (heap s) -> same (heap s) (heap s') x).
  { intros x X. apply (F (S x)); auto. }
  assert (BB : forall x bx, get_base (heap s) x = Some bx -> get_base (heap s') x = Some bx).
  { intros x bx X. rewrite G; auto. apply get_base_lt in X. lia. }
  assert (SI : forall x bx, get_base (heap s) x = Some bx -> b_inherits bx < List.length (heap s)
     /\ exists l, get_slice (heap s) (b_inherits bx) = Some l /\ get_slice (heap s') (b_inherits bx) = Some l).
  { intros x bx X. destruct (i_slice _ I _ _ X) as (l & Q).
    assert (Lt : b_inherits bx < List.length (heap s)) by (apply get_slice_nth in Q; eapply nth_error_lt; eauto).
    split; auto. exists l. split; auto. rewrite (same_slice (heap s) (heap s')); auto. }
  exists i. split; auto. split; [|split; [|split; [exists b; auto|intros; exists b; auto]]].
  - constructor.
    + pose proof (i_len _ I). destruct (F 0). lia.
    + intros x b0 G0. destruct (i_base _ I _ _ G0) as (b1 & G1 & A1 & A2 & A3). exists b1. split; auto. split; auto. split; auto.
      destruct A3 as [A3|(A3 & A4 & A5 & A6)]; auto. right. repeat split; auto.
      destruct (SI _ _ G1) as (_ & l & Q1 & Q2). rewrite A2 in Q1, Q2. congruence.
    + intros l d Q. pose proof (i_dt _ I _ _ Q) as Q'. apply get_dt_nth in Q'. apply get_dt_nth.
      assert (SM : same (heap s) (heap s') l) by (apply FF; eapply nth_error_lt; eauto). rewrite SM. exact Q'.
    + intros x bx X. destruct (Nat.eq_dec x i) as [->|N].
      * rewrite Gb in X. injection X as <-. eauto.
      * rewrite G in X by auto. destruct (SI _ _ X) as (_ & l & _ & Q). eauto.
    + intros x y bx by_ X Y Q. destruct (Nat.eq_dec x i) as [->|Nx]; destruct (Nat.eq_dec y i) as [->|Ny]; auto.
      * rewrite Gb in X. injection X as <-. rewrite G in Y by auto. destruct (SI _ _ Y) as (K & _). lia.
      * rewrite Gb in Y. injection Y as <-. rewrite G in X by auto. destruct (SI _ _ X) as (K & _). lia.
      * rewrite G in X, Y by auto. eapply (i_own _ I); eauto.
  - split; [apply (F 0)|]. intros x bx X. exists bx. auto.
Qed.

(** The parents of a settled type are written. *)
Lemma step_parents s a b l' : inv (heap s) -> get_base (heap s) a = Some b -> settled b = true ->
  inv (upd (b_inherits b) (CSlice l') (heap s)) /\ later (heap s) (upd (b_inherits b) (CSlice l') (heap s)).
Proof.
  intros I Ea S. destruct (i_slice _ I _ _ Ea) as (l & Q). apply get_slice_nth in Q.
  set (m := b_inherits b) in *. set (h' := upd m (CSlice l') (heap s)).
  assert (BB : forall x, get_base h' x = get_base (heap s) x).
  { intros x. unfold get_base, h'. destruct (Nat.eq_dec x m) as [->|N].
    - rewrite (nth_error_upd_eq _ _ _ _ Q), Q. reflexivity.
    - now rewrite nth_error_upd_neq by auto. }
  assert (SL : forall x k, get_slice (heap s) x = Some k -> exists k', get_slice h' x = Some k' /\ (x <> m -> k' = k)).
  { intros x k X. destruct (Nat.eq_dec x m) as [->|N].
    - exists l'. split; [apply get_slice_nth; eapply nth_error_upd_eq; eauto|congruence].
    - exists k. split; auto. unfold h', get_slice. rewrite nth_error_upd_neq by auto. exact X. }
  split; [constructor|split].
  - unfold h'. rewrite upd_length. apply I.
  - intros x b0 G0. destruct (i_base _ I _ _ G0) as (b1 & G1 & A1 & A2 & A3). exists b1. rewrite BB. split; auto. split; auto. split; auto.
    destruct A3 as [A3|(A3 & A4 & A5 & A6)]; auto.
    destruct (Nat.eq_dec (b_inherits b0) m) as [Q1|N].
    + left. assert (x = a) by (eapply (i_own _ I); eauto; unfold m in Q1; congruence). subst x. congruence.
    + right. repeat split; auto. destruct (i_slice _ I _ _ G1) as (k & K). rewrite A2 in K.
      destruct (SL _ _ K) as (k' & K1 & K2). rewrite (K2 N) in K1. congruence.
  - intros x d X. pose proof (i_dt _ I _ _ X) as Y. apply get_dt_nth in Y. apply get_dt_nth. unfold h'.
    rewrite nth_error_upd_neq; auto. intros ->. congruence.
  - intros x bx X. rewrite BB in X. destruct (i_slice _ I _ _ X) as (k & K). destruct (SL _ _ K) as (k' & K' & _). eauto.
  - intros x y bx by_ X Y. rewrite BB in X, Y. eapply (i_own _ I); eauto.
  - unfold h'. rewrite upd_length. auto.
  - intros x bx X. exists bx. rewrite BB. auto.
Qed.

(** A new slice. *)
Lemma step_slice h l : inv h -> inv (h ++ [CSlice l]) /\ later h (h ++ [CSlice l]).
Proof.
  intros I.
  assert (BB : forall x, get_base (h ++ [CSlice l]) x = get_base h x).
  { intros x. unfold get_base. destruct (Nat.lt_ge_cases x (List.length h)) as [X|X].
    - now rewrite nth_error_app1.
    - rewrite nth_error_app2 by lia. destruct (nth_error_None h x) as [_ Q]. rewrite Q by lia.
      destruct (x - List.length h) as [|[|k]]; reflexivity. }
  assert (NN : forall x c, nth_error h x = Some c -> nth_error (h ++ [CSlice l]) x = Some c).
  { intros x c X. rewrite nth_error_app1; auto. eapply nth_error_lt; eauto. }
  split; [constructor|split].
  - rewrite app_length. simpl. pose proof (i_len _ I). lia.
  - intros x b0 G0. destruct (i_base _ I _ _ G0) as (b1 & G1 & A1 & A2 & A3). exists b1. rewrite BB. split; auto. split; auto. split; auto.
    destruct A3 as [A3|(A3 & A4 & A5 & A6)]; auto. right. repeat split; auto.
    destruct (i_slice _ I _ _ G1) as (k & K). rewrite A2 in K. rewrite <- A6, K. apply get_slice_nth. apply NN.
    now apply get_slice_nth.
  - intros x d X. apply get_dt_nth. apply NN. apply get_dt_nth. now apply (i_dt _ I).
  - intros x bx X. rewrite BB in X. destruct (i_slice _ I _ _ X) as (k & K). exists k. apply get_slice_nth. apply NN.
    now apply get_slice_nth.
  - intros x y bx by_ X Y. rewrite BB in X, Y. eapply (i_own _ I); eauto.
  - rewrite app_length. lia.
  - intros x bx X. exists bx. rewrite BB. auto.
Qed.

(** * Runs *)

(** [fo]: running out of fuel is allowed. *)
Variable fo : Prop.

Definition run {A} (m : M A) (s : st) (Q : A -> st -> Prop) : Prop :=
  inv (heap (snd (m s))) /\ later (heap s) (heap (snd (m s)))
  /\ match fst (m s) with Ok x => Q x (snd (m s)) | Err => True | Panic => False | OutOfFuel => fo end.

Lemma run_bind {A B} (m : M A) (k : A -> M B) s Q Q' : run m s Q ->
  (forall x s1, inv (heap s1) -> later (heap s) (heap s1) -> Q x s1 -> run (k x) s1 Q') -> run (bind m k) s Q'.
Proof.
  intros (I & L & R) K. unfold run, bind. destruct (m s) as [r s1]. simpl in *. destruct r as [x| | |]; simpl; auto.
  - destruct (K x s1 I L R) as (I' & L' & R'). split; auto. split; auto. eapply later_trans; eauto.
Qed.

Lemma run_rd {A B} (get : list cell -> addr -> option A) a (k : A -> M B) s x Q :
  get (heap s) a = Some x -> run (k x) s Q -> run (bind (rd get a) k) s Q.
Proof. intros G R. unfold run. rewrite (bind_ok _ _ _ _ _ (rd_some _ _ _ _ G)). exact R. Qed.

Lemma run_ret {A} (x : A) s (Q : A -> st -> Prop) : inv (heap s) -> Q x s -> run (ret x) s Q.
Proof. intros I q. unfold run, ret. simpl. split; auto. split; auto. apply later_refl. Qed.

Lemma run_fail {A} s (Q : A -> st -> Prop) : inv (heap s) -> run fail s Q.
Proof. intros I. unfold run, fail. simpl. split; auto. split; auto. apply later_refl. Qed.

Lemma run_weaken {A} (m : M A) s (Q Q' : A -> st -> Prop) : run m s Q -> (forall x s1, Q x s1 -> Q' x s1) -> run m s Q'.
Proof.
  intros (I & L & R) K. split; auto. split; auto. destruct (fst (m s)); auto.
Qed.

Lemma run_concrete a t fs s : inv (heap s) -> is_base (heap s) a -> builtin t = true -> tame fs ->
  run (make_concrete a t fs) s (fun _ s' => settled_at (heap s') a).
Proof.
  intros I (b & Eb) B T. unfold run. destruct (make_concrete a t fs s) as [r s'] eqn:H. simpl.
  destruct (make_concrete_only _ _ _ _ _ _ _ Eb T H) as (R & O & sh & E' & N).
  assert (S : settled (set_shape (Some sh) (set_type t b)) = true).
  { unfold settled. simpl. specialize (N B). destruct sh; auto. }
  destruct (step_base s s' a b _ I O Eb E' eq_refl eq_refl S) as [I' L']. split; auto. split; auto.
  destruct R as [-> | ->]; auto. exists (set_shape (Some sh) (set_type t b)). auto.
Qed.

Lemma run_new t loc s : inv (heap s) ->
  run (make_new "" t loc) s (fun i s' => is_base (heap s') i /\ (builtin t = true -> settled_at (heap s') i)).
Proof.
  intros I. unfold run. destruct (make_new "" t loc s) as [r s'] eqn:H. simpl.
  destruct (step_new _ _ _ _ _ I H) as (i & -> & I' & L & B & S). auto.
Qed.

Lemma run_upd_settled a f s : inv (heap s) -> settled_at (heap s) a ->
  (forall b, settled b = true -> b_loc (f b) = b_loc b /\ b_inherits (f b) = b_inherits b /\ settled (f b) = true) ->
  run (upd_base a f) s (fun _ s' => settled_at (heap s') a).
Proof.
  intros I (b & Eb & S) K. unfold run. destruct (upd_base a f s) as [r s'] eqn:H. simpl.
  destruct (upd_base_only _ _ _ _ _ _ Eb H) as (-> & O & E'). destruct (K b S) as (K1 & K2 & K3).
  destruct (step_base s s' a b _ I O Eb E' K1 K2 K3) as [I' L']. split; auto. split; auto. exists (f b). auto.
Qed.

Lemma run_members a sl s : inv (heap s) -> settled_at (heap s) a ->
  run (set_members a sl) s (fun _ s' => settled_at (heap s') a).
Proof.
  intros I S. apply run_upd_settled; auto. intros b K. destruct (b_shape b) as [[]|] eqn:Q; auto.
  split; [reflexivity|]. split; [reflexivity|]. unfold settled in *. simpl. rewrite Q in K. exact K.
Qed.

Lemma run_arr a f s : inv (heap s) -> settled_at (heap s) a ->
  run (upd_arr a f) s (fun _ s' => settled_at (heap s') a).
Proof.
  intros I S. destruct S as (b & Eb & S). unfold upd_arr. apply run_rd with b; auto.
  destruct (b_shape b) as [[]|] eqn:Q; try (apply run_ret; [auto|exists b; auto]).
  assert (R : run (upd_base a (set_shape (Some (SArray (f f0))))) s (fun _ s' => settled_at (heap s') a)).
  { unfold run. destruct (upd_base a (set_shape (Some (SArray (f f0)))) s) as [r s'] eqn:H. simpl.
    destruct (upd_base_only _ _ _ _ _ _ Eb H) as (-> & O & E').
    assert (K : settled (set_shape (Some (SArray (f f0))) b) = true).
    { unfold settled in *. simpl. rewrite Q in S. exact S. }
    destruct (step_base s s' a b _ I O Eb E' eq_refl eq_refl K) as [I' L']. split; auto. split; auto. eexists. split; eauto. }
  unfold run, upd_base in R. rewrite (bind_ok _ _ _ _ _ (rd_some _ _ _ _ Eb)) in R. exact R.
Qed.

Lemma run_alloc l s : inv (heap s) -> run (alloc (CSlice l)) s (fun _ s' => True).
Proof.
  intros I. unfold run, alloc. simpl. destruct (step_slice (heap s) l I). auto.
Qed.

(** * The visitor *)

Definition head_atom (x : atom) : option string :=
  match x with ARef s o => Some (ref_name s o) | AGroup e => head_ref e | APrim _ => None end.
Definition head_typ (t : typ) : option string := match t with TAtom x => head_atom x | _ => None end.

Lemma head_type t : head_ref (EType t) = head_typ t.
Proof. destruct t as [[]| |]; reflexivity. Qed.

Section Visiting.
Variable rec : addr -> M unit.

Definition resolves (r : addr) (s : st) : Prop := run (rec r) s (fun _ s' => settled_at (heap s') r).
Definition recs (h : list cell) : Prop :=
  forall r s, is_base h0 r -> inv (heap s) -> later h (heap s) -> resolves r s.

Lemma recs_later h h' : later h h' -> recs h -> recs h'.
Proof. intros L R r s B I L'. apply R; auto. eapply later_trans; eauto. Qed.

Definition visits_well (v : addr -> option (shape -> res shape) -> M unit) (hd : option string) : Prop :=
  forall a fs s, inv (heap s) -> is_base (heap s) a -> tame fs ->
    (forall s1, inv (heap s1) -> later (heap s) (heap s1) -> settled_at (heap s1) a -> recs (heap s1)) ->
    (forall nm b r, hd = Some nm -> get_base (heap s) a = Some b -> rv_lookup E nm (b_loc b) = Some r -> resolves r s) ->
    run (v a fs) s (fun _ s' => settled_at (heap s') a).

Lemma tame_none : tame None.
Proof. intros f sh X. discriminate X. Qed.

Lemma is_base_later h h' x : later h h' -> is_base h x -> is_base h' x.
Proof. intros [_ L] (b & G). destruct (L _ _ G) as (b' & G' & _). exists b'. auto. Qed.

Lemma base_now h x : inv h -> is_base h0 x -> is_base h x.
Proof. intros I (b & G). destruct (i_base _ I _ _ G) as (b' & G' & _). exists b'. auto. Qed.

Lemma visits_any v hd x s : visits_well v hd -> inv (heap s) -> is_base (heap s) x -> recs (heap s) ->
  run (v x None) s (fun _ s' => settled_at (heap s') x).
Proof.
  intros V I B R. apply V; auto.
  - apply tame_none.
  - intros s1 _ L _. eapply recs_later; eauto.
  - intros nm b r _ _ Lk. apply R; auto; [|apply later_refl]. exact (p_lookup _ _ W _ _ _ Lk).
Qed.

Lemma visit_member v hd t loc s : visits_well v hd -> inv (heap s) -> recs (heap s) ->
  run (bind (make_new "" t loc) (fun x => bind (v x None) (fun _ => ret x))) s
    (fun x s' => True).
Proof.
  intros V I R. eapply run_bind; [apply run_new; assumption|]. intros x s1 I1 L1 [B1 _].
  eapply run_bind; [eapply visits_any; eauto; eapply recs_later; eauto|]. intros [] s2 I2 L2 S2.
  apply run_ret; auto.
Qed.

Lemma visits_ref nm : visits_well (visit_ref E rec nm) (Some nm).
Proof.
  intros a fs s I (b & G) T R H. unfold visit_ref. apply run_rd with b; auto.
  destruct (rv_lookup E nm (b_loc b)) as [r|] eqn:Lk; [|apply run_fail; auto].
  pose proof (p_lookup _ _ W _ _ _ Lk) as Br. destruct (base_now _ _ I Br) as (rb & Gr).
  apply run_rd with rb; auto. destruct (Z.eqb (b_id rb) (b_id b)); [apply run_fail; auto|].
  eapply run_bind; [apply (H nm b r eq_refl G Lk)|]. intros [] s1 I1 L1 (rb' & Gr' & Sr).
  apply run_rd with rb'; auto.
  assert (BT : builtin (b_type rb') = true).
  { unfold settled in Sr. destruct (b_shape rb') as [[]|]; congruence. }
  eapply run_bind; [apply run_concrete; auto; eapply is_base_later; eauto; exists b; auto|].
  intros [] s2 I2 L2 (b2 & G2 & S2). destruct fs as [f|].
  - apply run_rd with b2; auto. destruct (i_slice _ I2 _ _ G2) as (l & Ql). apply run_rd with l; auto.
    unfold run, write. simpl. destruct (step_parents s2 a b2 (l ++ [r]) I2 G2 S2) as [I3 L3].
    split; auto. split; auto. eapply settled_later; eauto. exists b2; auto.
  - apply run_upd_settled; [auto|exists b2; auto|]. intros b3 S3. auto.
Qed.

Lemma visits_all :
  (forall e, visits_well (visit_expr E rec e) (head_ref e))
  /\ (forall t, visits_well (visit_typ E rec t) (head_typ t))
  /\ (forall x, visits_well (visit_atom E rec x) (head_atom x)).
Proof.
  apply trees_all.
  - intros t V. rewrite head_type. exact V.
  - intros t1 t2 ts V1 V2 Vs a fs s I B T R _. simpl.
    eapply run_bind; [apply run_concrete; [exact I|exact B|reflexivity|exact T]|]. intros [] s1 I1 L1 S1.
    pose proof (R s1 I1 L1 S1) as R1. destruct S1 as (b & G & S1). apply run_rd with b; auto.
    eapply run_bind; [apply run_new; assumption|]. intros x1 s2 I2 L2 [B2 _].
    assert (R2 : recs (heap s2)) by (eapply recs_later; eauto).
    eapply run_bind; [apply (visits_any (visit_typ E rec t1) (head_typ t1)); auto|]. intros [] s3 I3 L3 _.
    assert (R3 : recs (heap s3)) by (eapply recs_later; eauto).
    eapply run_bind; [apply run_new; assumption|]. intros x2 s4 I4 L4 [B4 _].
    assert (R4 : recs (heap s4)) by (eapply recs_later; eauto).
    eapply run_bind; [apply (visits_any (visit_typ E rec t2) (head_typ t2)); auto|]. intros [] s5 I5 L5 _.
    assert (R5 : recs (heap s5)) by (eapply recs_later; eauto).
    eapply run_bind with (Q := fun _ _ => True).
    + clear - W Vs I5 R5. revert s5 I5 R5. induction Vs as [|t ts V Vs IH]; intros s I R.
      * apply run_ret; auto.
      * eapply run_bind; [apply run_new; assumption|]. intros x s1 I1 L1 [B1 _].
        assert (R1 : recs (heap s1)) by (eapply recs_later; eauto).
        eapply run_bind; [apply (visits_any (visit_typ E rec t) (head_typ t)); auto|]. intros [] s2 I2 L2 _.
        assert (R2 : recs (heap s2)) by (eapply recs_later; eauto).
        eapply run_bind; [apply IH; auto|]. intros l s3 I3 L3 _. apply run_ret; auto.
    + intros xs s6 I6 L6 _. eapply run_bind; [apply run_alloc; auto|]. intros sl s7 I7 L7 _.
      apply run_members; auto. assert (LL : later (heap s1) (heap s7)).
      { repeat (eapply later_trans; [eassumption|]). apply later_refl. }
      eapply settled_later; eauto. exists b; auto.
  - intros x V. exact V.
  - intros x V a fs s I B T R _. simpl.
    eapply run_bind; [apply run_concrete; [exact I|exact B|reflexivity|exact T]|]. intros [] s1 I1 L1 S1.
    pose proof (R s1 I1 L1 S1) as R1. destruct S1 as (b & G & S1). apply run_rd with b; auto.
    eapply run_bind; [apply run_new; assumption|]. intros x1 s2 I2 L2 [B2 _].
    assert (R2 : recs (heap s2)) by (eapply recs_later; eauto).
    eapply run_bind; [apply (visits_any (visit_atom E rec x) (head_atom x)); auto|]. intros [] s3 I3 L3 _.
    apply run_arr; auto. apply (settled_later _ _ _ (later_trans _ _ _ L2 L3)). exists b; auto.
  - intros x V a fs s I B T R _. simpl.
    eapply run_bind; [apply run_concrete; [exact I|exact B|reflexivity|exact T]|]. intros [] s1 I1 L1 S1.
    pose proof (R s1 I1 L1 S1) as R1. destruct S1 as (b & G & S1). apply run_rd with b; auto.
    eapply run_bind; [apply run_new; assumption|]. intros x1 s2 I2 L2 [B2 _].
    assert (R2 : recs (heap s2)) by (eapply recs_later; eauto).
    eapply run_bind; [apply (visits_any (visit_atom E rec x) (head_atom x)); auto|]. intros [] s3 I3 L3 _.
    eapply run_bind; [apply run_new; assumption|]. intros x2 s4 I4 L4 _.
    eapply run_bind; [apply run_alloc; auto|]. intros sl s5 I5 L5 _.
    apply run_members; auto. assert (LL : later (heap s1) (heap s5)).
    { repeat (eapply later_trans; [eassumption|]). apply later_refl. }
    eapply settled_later; eauto. exists b; auto.
  - intros p a fs s I B T R _. simpl. apply run_concrete; auto; [destruct p; reflexivity|apply tame_none].
  - intros e V. exact V.
  - intros s o. exact (visits_ref (ref_name s o)).
Qed.
End Visiting.

(** * Resolution *)

Variable rank : addr -> nat.
Variable R : nat.

Definition open_at (h : list cell) (x : addr) : bool :=
  match get_base h0 x, get_base h x with Some _, Some b => negb (settled b) | _, _ => false end.
Definition unsettled (h : list cell) : nat := List.length (filter (open_at h) (seq 0 (List.length h0))).

Lemma filter_le {A} (f g : A -> bool) l : (forall x, f x = true -> g x = true) ->
  List.length (filter f l) <= List.length (filter g l).
Proof.
  intros H. induction l as [|x l IH]; simpl; auto. destruct (f x) eqn:F.
  - rewrite (H _ F). simpl. lia.
  - destruct (g x); simpl; lia.
Qed.

Lemma filter_lt {A} (f g : A -> bool) l a : (forall x, f x = true -> g x = true) ->
  In a l -> f a = false -> g a = true -> List.length (filter f l) < List.length (filter g l).
Proof.
  intros H. induction l as [|x l IH]; simpl; [tauto|]. intros [->|I] Fa Ga.
  - rewrite Fa, Ga. simpl. pose proof (filter_le f g l H). lia.
  - specialize (IH I Fa Ga). destruct (f x) eqn:F.
    + rewrite (H _ F). simpl. lia.
    + destruct (g x); simpl; lia.
Qed.

Lemma still h h' x : inv h -> later h h' -> open_at h' x = true -> open_at h x = true.
Proof.
  unfold open_at. intros I [_ L] H. destruct (get_base h0 x) as [b0|] eqn:G0; auto.
  destruct (i_base _ I _ _ G0) as (b & G & _). destruct (L _ _ G) as (b' & G' & _ & K).
  rewrite G. rewrite G' in H. destruct (settled b); auto. rewrite K in H; auto.
Qed.

Lemma unsettled_le h h' : inv h -> later h h' -> unsettled h' <= unsettled h.
Proof. intros I L. apply filter_le. intros x. apply still; auto. Qed.

Lemma unsettled_lt h h' a : inv h -> later h h' -> is_base h0 a -> ~ settled_at h a -> settled_at h' a ->
  unsettled h' < unsettled h.
Proof.
  intros I L (b0 & G0) N (b' & G' & S'). apply filter_lt with a.
  - intros x. apply still; auto.
  - apply in_seq. apply get_base_lt in G0. lia.
  - unfold open_at. rewrite G0, G', S'. reflexivity.
  - unfold open_at. rewrite G0. destruct (i_base _ I _ _ G0) as (b & G & _). rewrite G.
    destruct (settled b) eqn:S; auto. exfalso. apply N. exists b; auto.
Qed.

Hypothesis rank_top : forall x, is_base h0 x -> rank x <= R.
Hypothesis rank_needs : fo \/ forall x y, needs (rv_lookup E) h0 x y -> rank y < rank x.

Lemma resolve_run n : forall a s, inv (heap s) -> is_base h0 a ->
  (fo \/ unsettled (heap s) * S R + rank a < n) -> resolves (resolve n E) a s.
Proof.
  induction n as [|n IH]; intros a s I (b0 & G0) F.
  { unfold resolves, run. simpl. split; auto. split; [apply later_refl|]. destruct F; [auto|lia]. }
  unfold resolves. simpl. destruct (i_base _ I _ _ G0) as (b & G & El & Ei & C). apply run_rd with b; auto.
  destruct (settled b) eqn:St0.
  { assert (K : exists b1, get_base (heap s) a = Some b1 /\ settled b1 = true) by eauto.
    unfold settled in St0. destruct (b_shape b) as [[]|]; try discriminate St0; apply run_ret; auto. }
  destruct C as [C|(Es & Et & Ek & Eq)]; [discriminate C|].
  assert (NS : ~ settled_at (heap s) a) by (intros (b1 & G1 & S1); congruence).
  destruct (b_shape b) as [sh|] eqn:Sh; [|apply run_fail; auto].
  assert (U : sh = SUnknown).
  { destruct sh; auto; exfalso;
      assert (B : builtin (b_type b0) = true) by (eapply (p_kind _ _ W); eauto; discriminate);
      unfold settled in St0; rewrite Sh, Et, B in St0; discriminate St0. }
  subst sh. rewrite Ek, Et, Ei.
  assert (LOW : forall y s1, needs (rv_lookup E) h0 a y -> is_base h0 y -> inv (heap s1) -> later (heap s) (heap s1) ->
            resolves (resolve n E) y s1).
  { intros y s1 Ny By I1 L1. apply IH; auto. destruct rank_needs as [|RN]; auto. destruct F as [|F]; auto. right.
    specialize (RN _ _ Ny). pose proof (unsettled_le _ _ I L1) as UL.
    assert (unsettled (heap s1) * S R <= unsettled (heap s) * S R) by (apply Nat.mul_le_mono_r; auto). lia. }
  assert (ME : is_base (heap s) a) by (exists b; auto).
  symmetry in Es.
  destruct (b_link b0) as [l|] eqn:Lk.
  - destruct (p_link _ _ W _ _ _ G0 Es Lk) as (y & D & By).
    apply run_rd with (Some y); [apply (i_dt _ I); auto|].
    eapply run_bind.
    { apply LOW; auto; [|apply later_refl]. exists b0. split; auto. split; auto. rewrite Lk. auto. }
    intros [] s1 I1 L1 (yb & Gy & Sy). apply run_rd with yb; auto. apply run_concrete; auto.
    + eapply is_base_later; eauto.
    + unfold settled in Sy. destruct (b_shape yb) as [[]|]; congruence.
  - destruct (String.eqb_spec (b_type b0) "composite") as [Co|Co].
    + destruct (p_parents _ _ W _ _ G0) as (ps & P & PB & PN). specialize (PN Es Lk Co).
      apply run_rd with ps; [congruence|].
      assert (NP : forall p, In p ps -> is_base h0 p /\ needs (rv_lookup E) h0 a p).
      { intros p Ip. split; auto. exists b0. split; auto. split; auto. rewrite Lk.
        destruct (String.eqb_spec (b_type b0) "composite"); [|congruence]. exists ps. auto. }
      eapply run_bind with (Q := fun _ s1 => forall p, In p ps -> settled_at (heap s1) p).
      * assert (LL : later (heap s) (heap s)) by apply later_refl. clear PN P PB.
        assert (GG : forall ss, later (heap s) (heap ss) -> inv (heap ss) ->
                  run (resolve_each (resolve n E) ps) ss (fun _ s1 => forall p, In p ps -> settled_at (heap s1) p)).
        { induction ps as [|p ps IHp]; intros ss L1 I1.
          - apply run_ret; auto. intros p [].
          - simpl. eapply run_bind; [apply LOW; auto; apply NP; simpl; auto|]. intros [] s2 I2 L2 S2.
            assert (RR : run (resolve_each (resolve n E) ps) s2 (fun _ s1 => forall p, In p ps -> settled_at (heap s1) p)).
            { apply IHp; auto; [|eapply later_trans; eauto]. intros q Iq. apply NP. simpl. auto. }
            destruct RR as (I3 & L3 & R3). split; auto. split; auto.
            destruct (fst (resolve_each (resolve n E) ps s2)); auto. intros q [<-|Iq]; auto.
            eapply settled_later; eauto. }
        apply GG; auto.
      * intros [] s1 I1 L1 SP. destruct ps as [|p ps]; [congruence|].
        destruct (SP p (or_introl eq_refl)) as (pb & Gp & Sp). apply run_rd with pb; auto. apply run_concrete; auto.
        { eapply is_base_later; eauto. }
        unfold settled in Sp. destruct (b_shape pb) as [[]|]; congruence.
    + destruct (read_type (b_type b0)) as [e|] eqn:RT; [|apply run_fail; auto].
      destruct (visits_all (resolve n E)) as (VE & _ & _). apply VE; auto.
      * intros s1 I1 L1 S1 r s2 Br I2 L2. apply IH; auto. destruct F as [|F]; auto. right.
        pose proof (unsettled_lt _ _ _ I L1 (ex_intro _ b0 G0) NS S1) as U1.
        pose proof (unsettled_le _ _ I1 L2) as U2. pose proof (rank_top _ Br) as Rr.
        assert (S (unsettled (heap s2)) * S R <= unsettled (heap s) * S R) by (apply Nat.mul_le_mono_r; lia).
        simpl in H. lia.
      * intros nm b1 r Hn G1 Lr. rewrite G in G1. injection G1 as <-. rewrite El in Lr.
        apply LOW; auto; [|exact (p_lookup _ _ W _ _ _ Lr)|apply later_refl].
        exists b0. split; auto. split; auto. rewrite Lk. destruct (String.eqb_spec (b_type b0) "composite"); [congruence|].
        exists e, nm. auto.
Qed.

Lemma resolve_all_run n l : forall s g, inv (heap s) -> (forall a, In a l -> is_base h0 a) ->
  (fo \/ unsettled (heap s) * S R + R < n) ->
  run (resolve_all n E l g) s (fun g' s' => g' = true -> g = true /\ forall a, In a l -> settled_at (heap s') a).
Proof.
  induction l as [|a l IH]; intros s g I B F.
  - apply run_ret; auto. intros ->. split; auto. intros a [].
  - assert (RA : resolves (resolve n E) a s).
    { apply resolve_run; auto; [apply B; simpl; auto|]. destruct F as [|F]; auto. right.
      assert (rank a <= R) by (apply rank_top; apply B; simpl; auto). lia. }
    destruct RA as (I1 & L1 & R1). simpl. unfold run, bind, try.
    destruct (resolve n E a s) as [r s1]. simpl in *.
    assert (NEXT : forall g1, run (resolve_all n E l g1) s1
              (fun g' s' => g' = true -> g1 = true /\ forall x, In x l -> settled_at (heap s') x)).
    { intros g1. apply IH; auto. destruct F as [|F]; auto. right. pose proof (unsettled_le _ _ I L1).
      assert (unsettled (heap s1) * S R <= unsettled (heap s) * S R) by (apply Nat.mul_le_mono_r; auto). lia. }
    destruct r as [[]| | |]; simpl; auto.
    + destruct (NEXT g) as (I2 & L2 & R2). split; auto. split; [eapply later_trans; eauto|].
      destruct (fst (resolve_all n E l g s1)); auto. intros X. destruct (R2 X) as [Y Z]. split; auto.
      intros x [<-|Ix]; auto. eapply settled_later; eauto.
    + destruct (NEXT false) as (I2 & L2 & R2). split; auto. split; [eapply later_trans; eauto|].
      destruct (fst (resolve_all n E l false s1)); auto. intros X. destruct (R2 X). discriminate.
Qed.
End Run.

(** * The statements *)

Definition top_rank (rank : addr -> nat) (h : list cell) : nat := list_max (map rank (seq 0 (List.length h))).

Lemma top_rank_le rank h x : is_base h x -> rank x <= top_rank rank h.
Proof.
  intros (b & G). apply get_base_lt in G. unfold top_rank.
  pose proof (proj1 (list_max_le (map rank (seq 0 (List.length h))) _) (le_n _)) as F.
  rewrite Forall_forall in F. apply F. apply in_map. apply in_seq. lia.
Qed.

Lemma resolve_all_no_err n E l : forall g s, fst (resolve_all n E l g s) <> Err.
Proof.
  induction l as [|a l IH]; intros g s; simpl; [discriminate|].
  unfold bind, try. destruct (resolve n E a s) as [[x| | |] s1]; simpl; try discriminate; apply IH.
Qed.

Theorem resolution_ends E s rank : parsed (rv_lookup E) (heap s) -> (forall a, tame (rv_facets E a)) ->
  (forall x y, needs (rv_lookup E) (heap s) x y -> rank y < rank x) ->
  exists n0, forall n l, n0 <= n -> (forall a, In a l -> is_base (heap s) a) ->
    exists g s', resolve_all n E l true s = (Ok g, s')
      /\ (g = true -> forall a, In a l -> exists b, get_base (heap s') a = Some b /\ settled b = true).
Proof.
  intros W T Rk. set (R := top_rank rank (heap s)).
  exists (S (unsettled (heap s) (heap s) * S R + R)). intros n l L B.
  destruct (resolve_all_run E (heap s) W T False rank R) with (n := n) (l := l) (s := s) (g := true) as (_ & _ & H); auto.
  - intros x. apply top_rank_le.
  - apply inv_start with E. auto.
  - pose proof (resolve_all_no_err n E l true s) as NE.
    destruct (resolve_all n E l true s) as [r s']. simpl in *. destruct r as [g| | |]; try contradiction.
    exists g, s'. split; auto. intros X. apply H. exact X.
Qed.

Theorem resolution_never_panics E s n l : parsed (rv_lookup E) (heap s) -> (forall a, tame (rv_facets E a)) ->
  (forall a, In a l -> is_base (heap s) a) -> fst (resolve_all n E l true s) <> Panic.
Proof.
  intros W T B.
  destruct (resolve_all_run E (heap s) W T True (fun _ => 0) 0) with (n := n) (l := l) (s := s) (g := true) as (_ & _ & H); auto.
  - apply inv_start with E. auto.
  - intros X. rewrite X in H. exact H.
Qed.

(** Aliases that refer to each other only. *)
Theorem alias_cycle_diverges E s (C : addr -> Prop) :
  (forall x, C x -> exists b e nm y yb, get_base (heap s) x = Some b /\ b_shape b = Some SUnknown
     /\ b_link b = None /\ b_type b <> "composite" /\ read_type (b_type b) = Some e /\ head_ref e = Some nm
     /\ rv_lookup E nm (b_loc b) = Some y /\ C y /\ get_base (heap s) y = Some yb /\ b_id yb <> b_id b) ->
  forall n x, C x -> resolve n E x s = (OutOfFuel, s).
Proof.
  intros H n. induction n as [|n IH]; intros x Cx; [reflexivity|].
  destruct (H _ Cx) as (b & e & nm & y & yb & G & Sh & Lk & Co & RT & Hd & Lo & Cy & Gy & Id).
  simpl. rewrite (bind_ok _ _ _ _ _ (rd_some _ _ _ _ G)). rewrite Sh, Lk.
  destruct (String.eqb_spec (b_type b) "composite"); [congruence|]. rewrite RT.
  assert (RR : visit_ref E (resolve n E) nm x (rv_facets E x) s = (OutOfFuel, s)).
  { unfold visit_ref. rewrite (bind_ok _ _ _ _ _ (rd_some _ _ _ _ G)), Lo, (bind_ok _ _ _ _ _ (rd_some _ _ _ _ Gy)).
    destruct (Z.eqb_spec (b_id yb) (b_id b)); [congruence|]. unfold bind at 1. rewrite (IH _ Cy). reflexivity. }
  clear - Hd RR. revert Hd. 
  assert (K : (forall e, head_ref e = Some nm -> visit_expr E (resolve n E) e x (rv_facets E x) s = (OutOfFuel, s))
    /\ (forall t, head_typ t = Some nm -> visit_typ E (resolve n E) t x (rv_facets E x) s = (OutOfFuel, s))
    /\ (forall a, head_atom a = Some nm -> visit_atom E (resolve n E) a x (rv_facets E x) s = (OutOfFuel, s))).
  { apply trees_all.
    - intros t V. rewrite head_type. exact V.
    - intros t1 t2 ts _ _ _ X. discriminate X.
    - intros a V. exact V.
    - intros a _ X. discriminate X.
    - intros a _ X. discriminate X.
    - intros p X. discriminate X.
    - intros e' V. exact V.
    - intros s0 o X. injection X as <-. exact RR. }
  apply K.
Qed.
