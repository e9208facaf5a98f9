(** Inheritance between two scalar types, as a whole: it does to the types what
    the computation on their facets says. *)
From Coq Require Import ZArith List String Bool Lia.
From Verif Require Import Base Scalars Heap Heap_lemmas Clone_proofs Spec_Validate.
Import ListNotations.
Open Scope string_scope.
Open Scope list_scope.
Open Scope nat_scope.

Theorem inherit_scalars n t src s tb sb tl sl tsh ssh r :
  t <> src -> get_base (heap s) t = Some tb -> get_base (heap s) src = Some sb -> b_visited sb = false ->
  get_facets (heap s) (b_facets tb) = Some tl -> get_facets (heap s) (b_facets sb) = Some sl ->
  b_shape tb = Some tsh -> b_shape sb = Some ssh -> ssh <> SAny -> inherit_scalar tsh ssh = Some r ->
  exists s', inherit (S n) t src s = (match r with Ok _ => Ok t | Err => Err | Panic => Panic | OutOfFuel => OutOfFuel end, s')
    /\ forall sh, r = Ok sh -> shape_at (heap s') t sh.
Proof.
  intros N T S V F1 F2 St Ss NA I. cbn [inherit]. unfold inherit_body.
  rewrite (bind_ok _ _ _ _ _ (rd_some _ _ _ _ S)), V.
  assert (U1 : exists s1, upd_base src (set_visited true) s = (Ok tt, s1) /\ heap s1 = upd src (CBase (set_visited true sb)) (heap s)).
  { unfold upd_base. rewrite (bind_ok _ _ _ _ _ (rd_some _ _ _ _ S)). eexists. split; reflexivity. }
  destruct U1 as (s1 & U1 & Q1). rewrite (bind_ok _ _ _ _ _ U1).
  apply get_base_nth in T, S. apply get_facets_nth in F1, F2.
  assert (T1 : nth_error (heap s1) t = Some (CBase tb)) by (rewrite Q1, nth_error_upd_neq by auto; auto).
  assert (S1 : nth_error (heap s1) src = Some (CBase (set_visited true sb))) by (rewrite Q1; eapply nth_error_upd_eq; eauto).
  assert (Fc : forall z l, nth_error (heap s) z = Some (CFacets l) -> nth_error (heap s1) z = Some (CFacets l)).
  { intros z l E. rewrite Q1. rewrite nth_error_upd_neq; auto. intros ->. congruence. }
  rewrite (bind_ok _ _ _ _ _ (rd_some get_base t s1 tb (proj2 (get_base_nth _ _ _) T1))).
  set (d := match b_desc tb with None => upd_base t (set_desc (b_desc sb)) | Some _ => ret tt end).
  assert (D : exists s2 tb2, d s1 = (Ok tt, s2) /\ nth_error (heap s2) t = Some (CBase tb2) 
    /\ nth_error (heap s2) src = Some (CBase (set_visited true sb))
    /\ forall z l, nth_error (heap s) z = Some (CFacets l) -> nth_error (heap s2) z = Some (CFacets l)).
  { unfold d. destruct (b_desc tb).
    - exists s1, tb. repeat (split; [auto; reflexivity|]). auto.
    - unfold upd_base. rewrite (bind_ok _ _ _ _ _ (rd_some get_base t s1 tb (proj2 (get_base_nth _ _ _) T1))).
      do 2 eexists. split; [reflexivity|]. simpl. split; [eapply nth_error_upd_eq; eauto|].
      split; [rewrite nth_error_upd_neq by auto; exact S1|].
      intros z l E. rewrite nth_error_upd_neq; auto. intros ->. congruence. }
  destruct D as (s2 & tb2 & D & T2 & S2 & Fc2). rewrite (bind_ok _ _ _ _ _ D). clear D d.
  rewrite (bind_ok _ _ _ _ _ (rd_some get_facets _ s2 tl (proj2 (get_facets_nth _ _ _) (Fc2 _ _ F1)))).
  rewrite (bind_ok _ _ _ _ _ (rd_some get_facets _ s2 sl (proj2 (get_facets_nth _ _ _) (Fc2 _ _ F2)))).
  assert (W : exists s3, Heap.write (b_facets tb) (CFacets (merge_facets tl sl)) s2 = (Ok tt, s3)
     /\ nth_error (heap s3) t = Some (CBase tb2) /\ nth_error (heap s3) src = Some (CBase (set_visited true sb))).
  { eexists. split; [reflexivity|]. simpl. split; rewrite nth_error_upd_neq; auto;
      intros E; rewrite E in F1; congruence. }
  destruct W as (s3 & W & T3 & S3). rewrite (bind_ok _ _ _ _ _ W).
  rewrite St, Ss.
  assert (Goal1 : forall (k : M addr), k = bind (inherit_shape n (inherit n) t src tsh ssh) (fun _ => bind (upd_base src (set_visited false)) (fun _ => ret t)) ->
    (forall s, inherit_shape n (inherit n) t src tsh ssh s = bind (lift r) (fun sh => upd_base t (set_shape (Some sh))) s) ->
    exists s', k s3 = (match r with Ok _ => Ok t | Err => Err | Panic => Panic | OutOfFuel => OutOfFuel end, s')
      /\ forall sh, r = Ok sh -> shape_at (heap s') t sh).
  { intros k -> Hs. unfold bind at 1. rewrite Hs. destruct r as [sh| | |]; try (exists s3; split; [reflexivity|discriminate]).
    unfold lift, bind at 1. unfold upd_base at 1.
    rewrite (bind_ok _ _ _ _ _ (rd_some get_base t s3 tb2 (proj2 (get_base_nth _ _ _) T3))).
    unfold Heap.write at 1. unfold bind at 1. unfold upd_base.
    set (s4 := Heap.St _ _ _).
    assert (S4 : nth_error (heap s4) src = Some (CBase (set_visited true sb))) by (unfold s4; simpl; rewrite nth_error_upd_neq; auto).
    rewrite (bind_ok _ _ _ _ _ (rd_some get_base src s4 _ (proj2 (get_base_nth _ _ _) S4))).
    eexists. split; [reflexivity|]. intros x [= <-]. exists (set_shape (Some sh) tb2). split; [|reflexivity].
    apply get_base_nth. simpl. rewrite nth_error_upd_neq by auto. unfold s4. simpl. eapply nth_error_upd_eq; eauto. }
  destruct tsh, ssh; cbn [inherit_scalar] in I; try discriminate I; try (exfalso; apply NA; reflexivity);
    (apply Goal1; [reflexivity|intros s0; injection I as <-; reflexivity]).
Qed.

Corollary inherit_json n t src s tb sb tl sl a b :
  t <> src -> get_base (heap s) t = Some tb -> get_base (heap s) src = Some sb -> b_visited sb = false ->
  get_facets (heap s) (b_facets tb) = Some tl -> get_facets (heap s) (b_facets sb) = Some sl ->
  b_shape tb = Some (SJSON a) -> b_shape sb = Some (SJSON b) ->
  (a <> "" /\ b <> "" /\ a <> b -> fst (inherit (S n) t src s) = Err)
  /\ (a = "" \/ b = "" \/ a = b -> exists s', inherit (S n) t src s = (Ok t, s') /\ shape_at (heap s') t (SJSON b)).
Proof.
  intros N T S V F1 F2 St Ss.
  destruct (inherit_scalars n t src s tb sb tl sl _ _ _ N T S V F1 F2 St Ss ltac:(discriminate) eq_refl) as (s' & E & Q).
  destruct (String.eqb_spec a "") as [Ea|Ea]; destruct (String.eqb_spec b "") as [Eb|Eb];
    destruct (String.eqb_spec a b) as [Ec|Ec]; cbn [negb andb] in E, Q; rewrite E;
    (split; [intros (A & B & C); first [reflexivity|destruct (A Ea)|destruct (B Eb)|destruct (C Ec)]
            |intros H; first [exists s'; split; [reflexivity|apply Q; reflexivity]|destruct H as [H|[H|H]]; contradiction]]).
Qed.
