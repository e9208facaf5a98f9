(** Unwrapping a model without unions and without types of the kind any hands
    every type back as itself (C27). *)
From Coq Require Import ZArith List String Bool Lia.
From Verif Require Import Base Scalars Heap Spec_Validate Spec_Mark Heap_lemmas Pipeline Unwrap_flags.
Import ListNotations.
Open Scope string_scope.
Open Scope list_scope.
Open Scope nat_scope.

Definition quiet (h : list cell) : Prop := inv True (fun _ => False) h.

Lemma quiet_flag h x b : quiet h -> get_base h x = Some b -> b_visited b = false.
Proof.
  intros Q G. destruct (i_base _ _ _ Q _ _ G) as [B B']. destruct (b_visited b); [|reflexivity]. exfalso.
  destruct (B' eq_refl) as [[]|Sa]. destruct (B _ Sa) as (_ & _ & Na). now destruct (Na Logic.I).
Qed.

Lemma inherit_same n a src s r s' : quiet (heap s) -> inherit n a src s = (Ok r, s') -> r = a.
Proof.
  intros Q H. destruct n as [|n]; [discriminate|]. cbn [inherit] in H. unfold inherit_body in H.
  apply bind_inv in H. destruct H as (sb & s0 & H0 & H). unfold rd in H0. destruct (get_base (heap s) src) as [sb'|] eqn:G; [|discriminate]. injection H0 as -> <-.
  rewrite (quiet_flag _ _ _ Q G) in H. destruct (i_base _ _ _ Q _ _ G) as [B _].
  apply bind_inv in H. destruct H as (u1 & s1 & _ & H). apply bind_inv in H. destruct H as (tb & s2 & _ & H). apply bind_inv in H. destruct H as (u2 & s3 & _ & H).
  apply bind_inv in H. destruct H as (tfm & s4 & _ & H). apply bind_inv in H. destruct H as (sfm & s5 & _ & H). apply bind_inv in H. destruct H as (u3 & s6 & _ & H).
  destruct (b_shape sb) as [ssh|]; [|destruct (b_shape tb) as [[]|]; discriminate H].
  destruct (B _ eq_refl) as (Nu & _).
  assert (R1 : forall tsh ss0 s7 r0 s8, bind (inherit_shape n (inherit n) a src tsh ss0) (fun _ => bind (upd_base src (set_visited false)) (fun _ => ret a)) s7 = (Ok r0, s8) -> r0 = a).
  { intros tsh ss0 s7 r0 s8 X. apply bind_inv in X. destruct X as (u4 & s9 & _ & X). apply bind_inv in X. destruct X as (u5 & s10 & _ & X). now injection X. }
  assert (R2 : forall m s7 r0 s8, bind m (fun good : bool => if good then ret a else fail) s7 = (Ok r0, s8) -> r0 = a).
  { intros m s7 r0 s8 X. apply bind_inv in X. destruct X as (g & s9 & _ & X). destruct g; [now injection X|discriminate]. }
  destruct ssh; try (now destruct (Nu anyof e)); destruct (b_shape tb) as [tsh|]; try discriminate H; try (now injection H);
    destruct tsh; first [now injection H|exact (R1 _ _ _ _ _ H)|exact (R2 _ _ _ _ H)].
Qed.

Lemma alias_same t x s r s' : alias_to t x s = (Ok r, s') -> r = t.
Proof.
  intros H. unfold alias_to in H. apply bind_inv in H. destruct H as (b & s1 & _ & H). apply bind_inv in H. destruct H as (sb & s2 & _ & H).
  destruct (b_shape b) as [tsh|]; [|discriminate]. destruct (b_shape sb) as [ssh|]; [|discriminate]. destruct (alias_shape tsh ssh); try discriminate.
  apply bind_inv in H. destruct H as (u & s3 & _ & H). now injection H.
Qed.

Lemma unwrap_same n a s r s' : quiet (heap s) -> unwrap n a s = (Ok r, s') -> r = a.
Proof.
  intros Q H. destruct n as [|n]; [discriminate|]. cbn [unwrap] in H. apply bind_inv in H. destruct H as (b & s0 & H0 & H).
  unfold rd in H0. destruct (get_base (heap s) a); [|discriminate]. injection H0 as -> <-.
  destruct (b_shape b); [|discriminate]. destruct (b_unwrapped b); [now injection H|].
  apply bind_inv in H. destruct H as ([] & s1 & H1 & H).
  assert (Q1 : quiet (heap s1)) by (refine (k_upd True _ a _ _ _ _ _ Q H1); intros b0; split; reflexivity).
  destruct (b_alias b) as [al|].
  - apply bind_inv in H. destruct H as (us & s2 & _ & H). apply bind_inv in H. destruct H as (u & s3 & _ & H). exact (alias_same _ _ _ _ _ H).
  - apply bind_inv in H. destruct H as (src & s2 & H2 & H). apply bind_inv in H. destruct H as ([] & s3 & H3 & H). apply bind_inv in H. destruct H as ([] & s4 & H4 & H).
    pose proof (k_parents True n _ _ (k_unwrap True _ n) _ (fun x y => k_inherit True n _ x y) _ _ _ _ Q1 H2) as Q2.
    pose proof (k_unwrap_target True n _ _ (k_unwrap True _ n) _ _ _ _ Q2 H3) as Q3.
    pose proof (k_fdefs True n _ _ (k_unwrap True _ n) _ _ _ _ Q3 H4) as Q4.
    apply bind_inv in H. destruct H as (a' & s5 & H5 & H). apply bind_inv in H. destruct H as (u & s6 & _ & H). injection H as <- _.
    destruct src as [x|]; [exact (inherit_same _ _ _ _ _ _ Q4 H5)|now injection H5].
Qed.

Lemma types_same n loc l : forall i s l' i' s', quiet (heap s) -> unwrap_types n loc l i s = (Ok (true, l', i'), s') -> l' = l.
Proof.
  induction l as [|[k a] l IH]; intros i s l' i' s' Q H; cbn [unwrap_types] in H; [now injection H|].
  apply bind_inv in H. destruct H as (r & s1 & H1 & H). unfold try in H1. destruct (unwrap n a s) as [[us| | |] s2] eqn:U; try discriminate.
  - injection H1 as <- <-. pose proof (k_unwrap True _ n a _ _ _ Q U) as Q1. rewrite (unwrap_same _ _ _ _ _ Q U) in *.
    apply bind_inv in H. destruct H as (ub & s3 & H3 & H). unfold rd in H3. destruct (get_base (heap s2) a); [|discriminate]. injection H3 as _ <-.
    apply bind_inv in H. destruct H as ([[ok1 l1] i1] & s4 & H4 & H). injection H as -> <- _ _. now rewrite (IH _ _ _ _ _ Q1 H4).
  - injection H1 as <- <-. apply bind_inv in H. destruct H as ([[ok1 l1] i1] & s4 & H4 & H). discriminate H.
Qed.

Lemma upd_self {A} (l : list A) : forall i x, nth_error l i = Some x -> upd i x l = l.
Proof. induction l as [|y l IH]; intros [|i] x H; cbn in *; try discriminate; [congruence|]. now rewrite IH. Qed.
Lemma oset_self {A} k (v : A) l : oget k l = Some v -> oset k v l = l.
Proof.
  induction l as [|[k1 z] l IH]; cbn; [discriminate|]. destruct (String.eqb k k1); [congruence|]. intros H. now rewrite IH.
Qed.

Lemma fragment_same n loc f u s u' s' : quiet (heap s) -> oget loc (u_frags u) = Some f -> unwrap_fragment n loc f u s = (Ok u', s') -> u_ok u' = true ->
  u_libs u' = u_libs u /\ u_frags u' = u_frags u.
Proof.
  intros Q Of H E. destruct f as [l|uses [a|]|]; cbn [unwrap_fragment] in H.
  - destruct (nth_error (u_libs u) l) as [lib|] eqn:Nl; [|discriminate]. apply bind_inv in H. destruct H as ([[ok an] ia] & s1 & H1 & H).
    apply bind_inv in H. destruct H as ([[ok' ty] it] & s2 & H2 & H). injection H as <- <-. cbn [u_ok u_libs u_frags] in *. apply andb_prop in E. destruct E as [E E2]. apply andb_prop in E. destruct E as [E0 E1]. subst ok ok'.
    pose proof (k_types True _ _ _ _ _ _ _ _ _ _ Q H1 eq_refl) as Q1. rewrite (types_same _ _ _ _ _ _ _ _ Q H1), (types_same _ _ _ _ _ _ _ _ Q1 H2).
    split; [|reflexivity]. apply upd_self. rewrite Nl. now destruct lib.
  - apply bind_inv in H. destruct H as (r & s1 & H1 & H). unfold try in H1. destruct (unwrap n a s) as [[us| | |] s2] eqn:U; try discriminate.
    + injection H1 as <- <-. apply bind_inv in H. destruct H as ([] & s3 & H3 & H).
      apply bind_inv in H. destruct H as (ub & s4 & H4 & H). injection H as <- <-. cbn [u_libs u_frags]. split; [reflexivity|].
      rewrite (unwrap_same _ _ _ _ _ Q U). now apply oset_self.
    + injection H1 as <- <-. injection H as <- <-. discriminate.
  - injection H as <- <-. discriminate.
  - injection H as <- <-. auto.
Qed.
Lemma fragments_same n order : forall u s u' s', quiet (heap s) -> unwrap_fragments n order u s = (Ok u', s') -> u_ok u' = true ->
  u_libs u' = u_libs u /\ u_frags u' = u_frags u.
Proof.
  induction order as [|k order IH]; intros u s u' s' Q H E; cbn [unwrap_fragments] in H; [injection H as <- <-; auto|].
  destruct (oget k (u_frags u)) as [f|] eqn:Of; [|eauto]. apply bind_inv in H. destruct H as (u1 & s1 & H1 & H).
  destruct (k_fragments True (fun _ => False) _ _ _ _ _ _ H E) as [E1 _]. destruct (k_fragment True (fun _ => False) _ _ _ _ _ _ _ H1 E1) as [_ I0].
  destruct (fragment_same _ _ _ _ _ _ _ Q Of H1 E1) as [L1 F1]. destruct (IH _ _ _ _ (I0 Q) H E) as [L2 F2]. split; congruence.
Qed.
