(** Proofs about Hooks.v. *)
From Coq Require Import List String Bool Arith Lia.
From Verif Require Import Base Hooks Spec_Hooks.
Import ListNotations.
Open Scope list_scope.
Open Scope nat_scope.

Definition arr (st : hstate) (a : nat) : list hook := nth a (h_arrays st) [].
Definition size (st : hstate) : nat := List.length (h_arrays st).
Definition valid_slice (st : hstate) (s : hslice) : Prop :=
  s_arr s < size st /\ s_len s <= List.length (arr st (s_arr s)).

Definition hinv (st : hstate) : Prop :=
  (forall k s, oget k (h_ctx st) = Some s -> valid_slice st s)
  /\ (forall k k' s s', oget k (h_ctx st) = Some s -> oget k' (h_ctx st) = Some s' -> k <> k' ->
        s_arr s <> s_arr s').

Definition contents (st : hstate) (key : string) : list hook :=
  match oget key (h_ctx st) with Some s => elems st s | None => [] end.

(** [st'] extends [st], changing at most array [a0] among the old ones, and
    there only beyond index [n0]. *)
Definition extends (st st' : hstate) (a0 n0 : nat) : Prop :=
  size st <= size st'
  /\ (forall a, a < size st -> a <> a0 -> arr st' a = arr st a)
  /\ (a0 < size st -> List.length (arr st' a0) = List.length (arr st a0)
      /\ firstn n0 (arr st' a0) = firstn n0 (arr st a0)).

Lemma set_nth_length {A} (l : list A) : forall i x, List.length (set_nth i x l) = List.length l.
Proof. induction l; intros [|i] x; simpl; auto. Qed.

Lemma set_nth_same {A} (l : list A) d : forall i x, i < List.length l -> nth i (set_nth i x l) d = x.
Proof. induction l; intros [|i] x L; simpl in *; try lia; auto. apply IHl. lia. Qed.

Lemma set_nth_other {A} (l : list A) d : forall i j x, i <> j -> nth j (set_nth i x l) d = nth j l d.
Proof. induction l; intros [|i] [|j] x N; simpl; auto; try lia. Qed.

Lemma firstn_app_exact {A} (l r : list A) n : List.length l = n -> firstn n (l ++ r) = l.
Proof. intros <-. rewrite firstn_app, Nat.sub_diag, firstn_all. simpl. apply app_nil_r. Qed.

Lemma new_array_spec st x a st' : new_array st x = (a, st') ->
  a = size st /\ size st' = S (size st) /\ h_ctx st' = h_ctx st /\ arr st' a = x
  /\ (forall b, b < size st -> arr st' b = arr st b).
Proof.
  unfold new_array. intros E. injection E as <- <-. unfold size, arr; simpl.
  rewrite app_length. simpl. repeat split.
  - lia.
  - rewrite app_nth2, Nat.sub_diag; auto.
  - intros b L. now rewrite app_nth1.
Qed.

Lemma go_append_spec spare st s xs s' st' :
  valid_slice st s -> go_append spare st s xs = (s', st') ->
  h_ctx st' = h_ctx st
  /\ valid_slice st' s'
  /\ elems st' s' = elems st s ++ xs
  /\ s_len s' = s_len s + List.length xs
  /\ (s_arr s' = s_arr s \/ s_arr s' = size st)
  /\ extends st st' (s_arr s) (s_len s).
Proof.
  intros [V1 V2] E. unfold go_append in E. fold (arr st (s_arr s)) in E.
  destruct (s_len s + List.length xs <=? List.length (arr st (s_arr s))) eqn:L.
  - apply Nat.leb_le in L. injection E as <- <-.
    set (new := firstn (s_len s) (arr st (s_arr s)) ++ xs ++ skipn (s_len s + List.length xs) (arr st (s_arr s))).
    assert (EL : List.length new = List.length (arr st (s_arr s))).
    { unfold new. rewrite !app_length, firstn_length, skipn_length. lia. }
    assert (EA : arr (Hs (set_nth (s_arr s) new (h_arrays st)) (h_ctx st)) (s_arr s) = new)
      by (unfold arr; simpl; now apply set_nth_same).
    split; [reflexivity|]. split; [|split; [|split; [reflexivity|split; [now left|]]]].
    + split; simpl.
      * unfold size; simpl. now rewrite set_nth_length.
      * rewrite EA. lia.
    + unfold elems; simpl. unfold arr in EA. simpl in EA. rewrite EA. unfold new.
      rewrite app_assoc. apply firstn_app_exact. rewrite app_length, firstn_length. fold (arr st (s_arr s)). lia.
    + split; [unfold size; simpl; rewrite set_nth_length; lia|]. split.
      * intros a La Na. unfold arr; simpl. apply set_nth_other. auto.
      * intros _. rewrite EA. split; [exact EL|]. unfold new. rewrite firstn_app, firstn_firstn, Nat.min_id.
        rewrite firstn_length. replace (s_len s - min (s_len s) (List.length (arr st (s_arr s)))) with 0 by lia.
        simpl. apply app_nil_r.
  - destruct (new_array st (firstn (s_len s) (arr st (s_arr s)) ++ xs ++ repeat nil_hook (spare (s_len s + List.length xs))))
      as [a st1] eqn:En. injection E as <- <-.
    destruct (new_array_spec _ _ _ _ En) as (-> & Sz & Cx & Ar & Old).
    split; [exact Cx|]. split; [|split; [|split; [reflexivity|split; [now right|]]]].
    + split; simpl; [lia|]. rewrite Ar, !app_length, firstn_length. lia.
    + unfold elems; simpl. fold (arr st1 (size st)). rewrite Ar, app_assoc. apply firstn_app_exact.
      rewrite app_length, firstn_length. fold (arr st (s_arr s)). lia.
    + split; [lia|]. split; [intros b Lb _; now apply Old|]. intros Lb. now rewrite Old.
Qed.

Lemma get_hooks_spec st key s st' : hinv st -> get_hooks st key = (s, st') ->
  hinv st' /\ h_ctx st' = h_ctx st /\ valid_slice st' s /\ elems st' s = contents st key
  /\ size st <= size st' /\ (forall a, a < size st -> arr st' a = arr st a)
  /\ (oget key (h_ctx st) = Some s /\ st' = st \/ oget key (h_ctx st) = None /\ s_arr s = size st)
  /\ (forall k' t, k' <> key -> oget k' (h_ctx st) = Some t -> s_arr t <> s_arr s).
Proof.
  intros [I1 I2] E. unfold get_hooks in E. unfold contents. destruct (oget key (h_ctx st)) as [s0|] eqn:Ek.
  - injection E as <- <-. split; [split; assumption|]. split; [reflexivity|].
    split; [exact (I1 _ _ Ek)|]. split; [reflexivity|]. split; [lia|]. split; [auto|].
    split; [now left|]. intros k' t N Et. eapply I2; eauto.
  - destruct (new_array st []) as [a st1] eqn:En. injection E as <- <-.
    destruct (new_array_spec _ _ _ _ En) as (-> & Sz & Cx & Ar & Old).
    assert (V : forall t, valid_slice st t -> valid_slice st1 t).
    { intros t [A B]. split; [lia|]. now rewrite Old. }
    split; [split|].
    + intros k t Et. rewrite Cx in Et. eauto.
    + intros k k' t t' Et Et'. rewrite Cx in Et, Et'. eauto.
    + split; [exact Cx|]. split; [split; simpl; lia|]. split; [reflexivity|].
      split; [lia|]. split; [exact Old|]. split; [now right|].
      intros k' t N Et. destruct (I1 _ _ Et) as [A _]. simpl. lia.
Qed.

(** Installing a slice that other keys do not share. *)
Lemma install st0 st key s l :
  hinv st0 -> h_ctx st = h_ctx st0 -> size st0 <= size st -> valid_slice st s -> elems st s = l ->
  (forall k t, k <> key -> oget k (h_ctx st0) = Some t -> s_arr t <> s_arr s) ->
  (forall k t, k <> key -> oget k (h_ctx st0) = Some t -> arr st (s_arr t) = arr st0 (s_arr t)) ->
  (forall t, oget key (h_ctx st0) = Some t -> True) ->
  hinv (set_hooks st key s)
  /\ contents (set_hooks st key s) key = l
  /\ (forall k, k <> key -> contents (set_hooks st key s) k = contents st0 k).
Proof.
  intros [I1 I2] Cx Sz V El Dis Same _. split; [split|split].
  - intros k t. unfold set_hooks; simpl. destruct (String.eqb_spec k key) as [->|N].
    + intros E. injection E as <-. exact V.
    + intros E. rewrite Cx in E. destruct (I1 _ _ E) as [A B]. split; [unfold size in *; simpl; lia|].
      unfold arr; simpl. fold (arr st (s_arr t)). rewrite (Same k t N E). exact B.
  - intros k k' t t'. unfold set_hooks; simpl. rewrite Cx.
    destruct (String.eqb_spec k key) as [->|N]; destruct (String.eqb_spec k' key) as [->|N'].
    + congruence.
    + intros E E' _. injection E as <-. intros Q. apply (Dis k' t' N' E'). auto.
    + intros E E' _. injection E' as <-. apply (Dis k t N E).
    + intros E E' NN. eapply I2; eauto.
  - unfold contents, set_hooks; simpl. rewrite String.eqb_refl. exact El.
  - intros k N. unfold contents, set_hooks; simpl. destruct (String.eqb_spec k key) as [->|_]; [congruence|].
    rewrite Cx. destruct (oget k (h_ctx st0)) as [t|] eqn:E; [|reflexivity].
    unfold elems; simpl. fold (arr st (s_arr t)). now rewrite (Same k t N E).
Qed.

Lemma remove_find c l :
  remove_first c l = match find_code c l with Some i => firstn i l ++ skipn (S i) l | None => l end.
Proof.
  induction l as [|x l IH]; [reflexivity|]. simpl. destruct (h_code x =? c); [reflexivity|].
  rewrite IH. destruct (find_code c l); reflexivity.
Qed.

Lemma find_code_lt c l i : find_code c l = Some i -> i < List.length l.
Proof.
  revert i. induction l as [|x l IH]; intros i; simpl; [discriminate|].
  destruct (h_code x =? c); [intros E; injection E as <-; lia|].
  destruct (find_code c l); [|discriminate]. intros E. injection E as <-. specialize (IH _ eq_refl). lia.
Qed.

Lemma do_op_spec spare st o : hinv st ->
  hinv (do_op spare st o) /\ forall key, contents (do_op spare st o) key = step_list key (contents st key) o.
Proof.
  intros I. destruct o as [k h|k h|k h|k]; simpl do_op; cbn [step_list].
  - unfold append_hook. destruct (get_hooks st k) as [s st1] eqn:Eg.
    destruct (get_hooks_spec _ _ _ _ I Eg) as (I1 & Cx & V & El & Sz & Old & Src & Dis).
    destruct (go_append spare st1 s [h]) as [s2 st2] eqn:Ea.
    destruct (go_append_spec _ _ _ _ _ _ V Ea) as (Cx2 & V2 & El2 & Ln2 & Src2 & Sz2 & Fr2 & _).
    rewrite El in El2.
    destruct (install st st2 k s2 _ I (eq_trans Cx2 Cx) (Nat.le_trans _ _ _ Sz Sz2) V2 El2) as (J1 & J2 & J3).
    + intros k' t N Et. destruct Src2 as [->| ->]; [eauto|].
      destruct I as [I0 _]. destruct (I0 _ _ Et) as [A _]. lia.
    + intros k' t N Et. destruct I as [I0 _]. destruct (I0 _ _ Et) as [A _].
      rewrite Fr2; [now apply Old|lia|]. exact (Dis k' t N Et).
    + auto.
    + split; [exact J1|]. intros key. destruct (String.eqb_spec k key) as [<-|N]; [exact J2|auto].
  - unfold prepend_hook. destruct (get_hooks st k) as [s st1] eqn:Eg.
    destruct (get_hooks_spec _ _ _ _ I Eg) as (I1 & Cx & V & El & Sz & Old & Src & Dis).
    destruct (new_array st1 [h]) as [a st2] eqn:En.
    destruct (new_array_spec _ _ _ _ En) as (-> & Sz2 & Cx2 & Ar2 & Old2).
    assert (V2 : valid_slice st2 (Sl (size st1) 1)) by (split; simpl; [lia|rewrite Ar2; simpl; lia]).
    destruct (go_append spare st2 (Sl (size st1) 1) (elems st1 s)) as [s3 st3] eqn:Ea.
    destruct (go_append_spec _ _ _ _ _ _ V2 Ea) as (Cx3 & V3 & El3 & Ln3 & Src3 & Sz3 & Fr3 & _).
    assert (Eh : elems st2 (Sl (size st1) 1) = [h]).
    { unfold elems. cbn [s_arr s_len]. fold (arr st2 (size st1)). rewrite Ar2. reflexivity. }
    rewrite Eh, El in El3. simpl in El3, Fr3, Src3.
    destruct (install st st3 k s3 _ I (eq_trans Cx3 (eq_trans Cx2 Cx)) ltac:(lia) V3 El3) as (J1 & J2 & J3).
    + intros k' t N Et. destruct I as [I0 _]. destruct (I0 _ _ Et) as [A _].
      destruct Src3 as [->| ->]; lia.
    + intros k' t N Et. destruct I as [I0 _]. destruct (I0 _ _ Et) as [A _].
      rewrite Fr3; [|lia|lia]. rewrite Old2; [now apply Old|lia].
    + auto.
    + split; [exact J1|]. intros key. destruct (String.eqb_spec k key) as [<-|N]; [exact J2|auto].
  - unfold remove_hook. destruct (get_hooks st k) as [s st1] eqn:Eg.
    destruct (get_hooks_spec _ _ _ _ I Eg) as (I1 & Cx & V & El & Sz & Old & Src & Dis).
    destruct (find_code (h_code h) (elems st1 s)) as [i|] eqn:Ef.
    + pose proof (find_code_lt _ _ _ Ef) as Li.
      assert (Lel : List.length (elems st1 s) = s_len s).
      { unfold elems. rewrite firstn_length. destruct V as [_ V]. unfold arr in V. lia. }
      assert (Vi : valid_slice st1 (Sl (s_arr s) i)) by (destruct V; split; simpl; lia).
      destruct (go_append spare st1 (Sl (s_arr s) i) (skipn (S i) (elems st1 s))) as [s2 st2] eqn:Ea.
      destruct (go_append_spec _ _ _ _ _ _ Vi Ea) as (Cx2 & V2 & El2 & Ln2 & Src2 & Sz2 & Fr2 & _).
      simpl in Fr2, Src2.
      assert (El3 : elems st2 s2 = remove_first (h_code h) (contents st k)).
      { rewrite remove_find, <- El, Ef, El2. f_equal. unfold elems; simpl. rewrite firstn_firstn.
        rewrite Lel in Li. now rewrite Nat.min_l by lia. }
      destruct (install st st2 k s2 _ I (eq_trans Cx2 Cx) (Nat.le_trans _ _ _ Sz Sz2) V2 El3) as (J1 & J2 & J3).
      * intros k' t N Et. destruct Src2 as [->| ->]; [eauto|].
        destruct I as [I0 _]. destruct (I0 _ _ Et) as [A _]. lia.
      * intros k' t N Et. destruct I as [I0 _]. destruct (I0 _ _ Et) as [A _].
        rewrite Fr2; [now apply Old|lia|]. exact (Dis k' t N Et).
      * auto.
      * split; [exact J1|]. intros key. destruct (String.eqb_spec k key) as [<-|N]; [exact J2|auto].
    + assert (El3 : elems st1 s = remove_first (h_code h) (contents st k))
        by (now rewrite remove_find, <- El, Ef).
      destruct (install st st1 k s _ I Cx Sz V El3) as (J1 & J2 & J3).
      * exact Dis.
      * intros k' t N Et. destruct I as [I0 _]. destruct (I0 _ _ Et) as [A _]. now apply Old.
      * auto.
      * split; [exact J1|]. intros key. destruct (String.eqb_spec k key) as [<-|N]; [exact J2|auto].
  - unfold clear_hooks. destruct (new_array st []) as [a st1] eqn:En.
    destruct (new_array_spec _ _ _ _ En) as (-> & Sz & Cx & Ar & Old).
    destruct (install st st1 k (Sl (size st) 0) [] I Cx ltac:(lia)) as (J1 & J2 & J3).
    + split; simpl; lia.
    + reflexivity.
    + intros k' t N Et. destruct I as [I0 _]. destruct (I0 _ _ Et) as [A _]. simpl. lia.
    + intros k' t N Et. destruct I as [I0 _]. destruct (I0 _ _ Et) as [A _]. now apply Old.
    + auto.
    + split; [exact J1|]. intros key. destruct (String.eqb_spec k key) as [<-|N]; [exact J2|auto].
Qed.

Lemma do_ops_spec spare ops : forall st, hinv st ->
  hinv (do_ops spare st ops)
  /\ forall key, contents (do_ops spare st ops) key = fold_left (step_list key) ops (contents st key).
Proof.
  induction ops as [|o ops IH]; intros st I; [split; [exact I|reflexivity]|].
  simpl. destruct (do_op_spec spare st o I) as [I1 C1]. destruct (IH _ I1) as [I2 C2].
  split; [exact I2|]. intros key. now rewrite C2, C1.
Qed.

Lemma hinv_init : hinv hooks_init.
Proof. split; intros; discriminate. Qed.

Theorem history spare ops key : contents (do_ops spare hooks_init ops) key = registered key ops.
Proof. destruct (do_ops_spec spare ops hooks_init hinv_init) as [_ C]. apply C. Qed.

(** * Calling *)

(** Array [a0] keeps its first [n0] elements [L], and the newest slices on it
    are at least that long. *)
Definition captured (st : hstate) (a0 n0 : nat) (L : list hook) : Prop :=
  a0 < size st /\ n0 <= List.length (arr st a0) /\ firstn n0 (arr st a0) = L
  /\ forall k s, oget k (h_ctx st) = Some s -> s_arr s = a0 -> n0 <= s_len s.

Lemma firstn_le {A} (l l' : list A) n m : n <= m -> firstn m l = firstn m l' -> firstn n l = firstn n l'.
Proof.
  intros H E. rewrite <- (Nat.min_l n m H), <- !firstn_firstn. now rewrite E.
Qed.

Lemma captured_op spare st o a0 n0 L : hinv st -> captured st a0 n0 L -> ~ is_remove o ->
  captured (do_op spare st o) a0 n0 L.
Proof.
  intros I (C1 & C2 & C3 & C4) NR. destruct o as [k h|k h|k h|k]; simpl do_op; [| |destruct (NR Logic.I)|].
  - unfold append_hook. destruct (get_hooks st k) as [s st1] eqn:Eg.
    destruct (get_hooks_spec _ _ _ _ I Eg) as (I1 & Cx & V & El & Sz & Old & Src & Dis).
    destruct (go_append spare st1 s [h]) as [s2 st2] eqn:Ea.
    destruct (go_append_spec _ _ _ _ _ _ V Ea) as (Cx2 & V2 & El2 & Ln2 & Src2 & Sz2 & Fr2 & Fr3).
    assert (Hs : s_arr s = a0 -> n0 <= s_len s).
    { intros E. destruct Src as [[Ek _]|[Ek Ea']]; [eapply C4; eauto|lia]. }
    assert (Keep : List.length (arr st2 a0) = List.length (arr st a0) /\ firstn n0 (arr st2 a0) = firstn n0 (arr st a0)).
    { rewrite <- (Old a0 C1). destruct (Nat.eq_dec (s_arr s) a0) as [E|N].
      - rewrite E in Fr3. destruct Fr3 as [F1 F2]; [lia|]. split; [exact F1|].
        eapply firstn_le; [|exact F2]. now apply Hs.
      - rewrite Fr2; [auto|lia|auto]. }
    destruct Keep as [K1 K2]. unfold captured, set_hooks; simpl.
    split; [unfold size in *; simpl; lia|]. unfold arr at 1 2; simpl. fold (arr st2 a0).
    split; [lia|]. split; [congruence|]. intros k' t. destruct (String.eqb_spec k' k) as [->|N].
    + intros E Et. injection E as <-. rewrite Ln2. destruct Src2 as [E2|E2]; [|lia].
      assert (n0 <= s_len s) by (apply Hs; congruence). lia.
    + rewrite Cx2, Cx. apply C4.
  - unfold prepend_hook. destruct (get_hooks st k) as [s st1] eqn:Eg.
    destruct (get_hooks_spec _ _ _ _ I Eg) as (I1 & Cx & V & El & Sz & Old & Src & Dis).
    destruct (new_array st1 [h]) as [a st2] eqn:En.
    destruct (new_array_spec _ _ _ _ En) as (-> & Sz2 & Cx2 & Ar2 & Old2).
    assert (V2 : valid_slice st2 (Sl (size st1) 1)) by (split; simpl; [lia|rewrite Ar2; simpl; lia]).
    destruct (go_append spare st2 (Sl (size st1) 1) (elems st1 s)) as [s3 st3] eqn:Ea.
    destruct (go_append_spec _ _ _ _ _ _ V2 Ea) as (Cx3 & V3 & El3 & Ln3 & Src3 & Sz3 & Fr3 & _).
    simpl in Fr3, Src3.
    assert (K : arr st3 a0 = arr st a0).
    { rewrite Fr3 by lia. rewrite Old2 by lia. now apply Old. }
    unfold captured, set_hooks; simpl. split; [unfold size in *; simpl; lia|].
    unfold arr at 1 2; simpl. fold (arr st3 a0). rewrite K. split; [lia|]. split; [exact C3|].
    intros k' t. destruct (String.eqb_spec k' k) as [->|N].
    + intros E Et. injection E as <-. destruct Src3; lia.
    + rewrite Cx3, Cx2, Cx. apply C4.
  - unfold clear_hooks. destruct (new_array st []) as [a st1] eqn:En.
    destruct (new_array_spec _ _ _ _ En) as (-> & Sz & Cx & Ar & Old).
    unfold captured, set_hooks; simpl. split; [unfold size in *; simpl; lia|].
    unfold arr at 1 2; simpl. fold (arr st1 a0). rewrite (Old a0 C1). split; [lia|]. split; [exact C3|].
    intros k' t. destruct (String.eqb_spec k' k) as [->|N].
    + intros E Et. injection E as <-. simpl in Et. lia.
    + rewrite Cx. apply C4.
Qed.

Lemma captured_ops spare ops : forall st a0 n0 L, hinv st -> captured st a0 n0 L ->
  (forall o, In o ops -> ~ is_remove o) ->
  hinv (do_ops spare st ops) /\ captured (do_ops spare st ops) a0 n0 L.
Proof.
  induction ops as [|o ops IH]; intros st a0 n0 L I C N; [split; assumption|].
  simpl. apply IH.
  - now apply do_op_spec.
  - apply captured_op; auto. apply N. now left.
  - intros o' Ho. apply N. now right.
Qed.

Lemma call_loop_runs spare B s L : never_removes B -> s_len s = List.length L ->
  forall n i st t e st', hinv st -> captured st (s_arr s) (s_len s) L -> i + n = s_len s ->
  call_loop spare B s i n st = (t, e, st') -> runs B (skipn i L) t e.
Proof.
  intros HB HL. induction n as [|n IH]; intros i st t e st' I C E R.
  - simpl in R. injection R as <- <- _. rewrite skipn_all2 by lia. constructor.
  - cbn [call_loop] in R. fold (arr st (s_arr s)) in R.
    assert (Hi : nth i (arr st (s_arr s)) nil_hook = nth i L nil_hook).
    { destruct C as (_ & _ & C & _). rewrite <- C. clear -E.
      assert (i < s_len s) by lia. revert H. generalize (s_len s) (arr st (s_arr s)). clear.
      induction i; intros [|m] [|x l] H; simpl; auto; try lia. apply IHi. lia. }
    rewrite Hi in R. set (h := nth i L nil_hook) in *.
    assert (Sk : skipn i L = h :: skipn (S i) L).
    { unfold h. assert (i < List.length L) by lia. revert H. clear. revert L.
      induction i; intros [|x l] H; simpl in *; try lia; auto. apply IHi. lia. }
    rewrite Sk. destruct (h_code h =? 0) eqn:Ez.
    + apply Nat.eqb_eq in Ez. apply runs_skip; [exact Ez|]. eapply IH; eauto. lia.
    + apply Nat.eqb_neq in Ez.
      destruct (captured_ops spare (fst (B h)) st _ _ _ I C (HB h)) as [I1 C1].
      destruct (snd (B h)) eqn:Eb.
      * injection R as <- <- _. now apply runs_error.
      * destruct (call_loop spare B s (S i) n (do_ops spare st (fst (B h)))) as [[t1 e1] st1] eqn:Er.
        injection R as <- <- <-. apply runs_next; auto. eapply IH; eauto. lia.
Qed.

Theorem call_runs spare B ops key t e st' : never_removes B ->
  call_hooks spare B (do_ops spare hooks_init ops) key = (t, e, st') ->
  runs B (registered key ops) t e.
Proof.
  intros HB R. destruct (do_ops_spec spare ops hooks_init hinv_init) as [I C].
  set (st := do_ops spare hooks_init ops) in *. unfold call_hooks in R.
  destruct (get_hooks st key) as [s st1] eqn:Eg.
  destruct (get_hooks_spec _ _ _ _ I Eg) as (I1 & Cx & V & El & Sz & Old & Src & Dis).
  rewrite (C key) in El. change (fold_left (step_list key) ops (contents hooks_init key)) with (registered key ops) in El.
  destruct V as [V1 V2].
  assert (Len : s_len s = List.length (registered key ops)).
  { rewrite <- El. unfold elems. rewrite firstn_length. unfold arr in V2. lia. }
  eapply (call_loop_runs spare B s (registered key ops) HB Len (s_len s) 0) in R; eauto.
  split; [exact V1|]. split; [exact V2|]. split; [exact El|].
  intros k t' Et Ea. rewrite Cx in Et. destruct Src as [[Ek _]|[Ek Ea']].
  - destruct (string_dec k key) as [->|N]; [assert (t' = s) by congruence; subst; lia|].
    exfalso. exact (Dis k t' N Et Ea).
  - exfalso. destruct I as [I0 _]. destruct (I0 _ _ Et) as [A _]. lia.
Qed.

Lemma runs_fun B l t e t' e' : runs B l t e -> runs B l t' e' -> t = t' /\ e = e'.
Proof.
  intros H. revert t' e'. induction H as [|h l t e Z H IH|h l Z E|h l t e Z E H IH]; intros t' e' K.
  - inversion K; auto.
  - inversion K; subst; try contradiction; auto.
  - inversion K; subst; try contradiction; try congruence; auto.
  - inversion K; subst; try contradiction; try congruence.
    match goal with Q : runs B l _ _ |- _ => destruct (IH _ _ Q) as [-> ->] end. auto.
Qed.

Lemma runs_total B l : exists t e, runs B l t e.
Proof.
  induction l as [|h l (t & e & IH)]; [exists [], false; constructor|].
  destruct (Nat.eq_dec (h_code h) 0) as [Z|Z]; [exists t, e; now apply runs_skip|].
  destruct (snd (B h)) eqn:E; [exists [h], true; now apply runs_error|].
  exists (h :: t), e. now apply runs_next.
Qed.

Theorem remove_exact ops key h l :
  l = registered key ops -> (forall x, In x l -> h_code x = h_code h -> x = h) -> NoDup l ->
  forall x, In x (registered key (ops ++ [Remove key h])) <-> In x l /\ x <> h.
Proof.
  intros El U ND x. unfold registered. rewrite fold_left_app. simpl.
  fold (registered key ops). rewrite <- El, String.eqb_refl. clear El.
  induction l as [|y l IH]; simpl; [tauto|]. inversion ND; subst.
  destruct (Nat.eqb_spec (h_code y) (h_code h)) as [E|N].
  - assert (y = h) by (apply U; [now left|exact E]). subst y. split.
    + intros Hx. split; [now right|]. intros ->. contradiction.
    + intros [[->|Hx] N]; [congruence|exact Hx].
  - simpl. rewrite IH; auto; [|intros z Hz; apply U; now right]. split.
    + intros [->|[A B]]; [split; [now left|]|tauto]. intros ->. congruence.
    + tauto.
Qed.

(** Order is kept: what is left is a sublist in the same order. *)
Theorem remove_order ops key h :
  exists l1 l2 r, registered key ops = l1 ++ r ++ l2
    /\ registered key (ops ++ [Remove key h]) = l1 ++ l2
    /\ ((r = [] /\ l2 = [] /\ forall x, In x l1 -> h_code x <> h_code h)
        \/ exists y, r = [y] /\ h_code y = h_code h /\ forall x, In x l1 -> h_code x <> h_code h).
Proof.
  unfold registered. rewrite fold_left_app. simpl. rewrite String.eqb_refl.
  generalize (fold_left (step_list key) ops []). intros l. induction l as [|y l IH].
  - exists [], [], []. simpl. tauto.
  - simpl. destruct (Nat.eqb_spec (h_code y) (h_code h)) as [E|N].
    + exists [], l, [y]. simpl. split; [reflexivity|]. split; [reflexivity|]. right. exists y. simpl. tauto.
    + destruct IH as (l1 & l2 & r & A & B & C). exists (y :: l1), l2, r. rewrite A at 1. rewrite B. simpl.
      split; [reflexivity|]. split; [reflexivity|].
      destruct C as [(-> & -> & C)|(z & -> & Ez & C)].
      * left. repeat split. intros x [<-|Hx]; auto.
      * right. exists z. repeat split; auto. intros x [<-|Hx]; auto.
Qed.
