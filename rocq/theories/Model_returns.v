(** Validation with the types of a parsed and unwrapped model returns when the
    model has no unions (C12). *)
From Coq Require Import ZArith List String Bool Lia.
From Verif Require Import Base Scalars Heap Validate Names Pipeline Spec_Validate Spec_Model Spec_Pipeline Decode Parse.
From Verif Require Import Heap_lemmas Validate_proofs.
From Verif Require Spec_Calm Shapes_calm Parse_fresh Model_calm.
Import ListNotations.
Open Scope string_scope.
Open Scope list_scope.
Open Scope nat_scope.

(** * The heads of recursive shapes are older than the shapes *)

Section Ages.
Variable R : addr -> Prop.
Definition older (h : list cell) : Prop :=
  forall a b hd, R a -> get_base h a = Some b -> b_shape b = Some (SRec hd) -> hd < a.
Definition ages (s s' : st) : Prop := older (heap s) -> older (heap s').
Lemma ages_refl s : ages s s. Proof. intros H. exact H. Qed.
Lemma ages_trans s1 s2 s3 : ages s1 s2 -> ages s2 s3 -> ages s1 s3. Proof. unfold ages. auto. Qed.

(** A cell that stays a cell of the same age. *)
Definition mild (c c' : cell) : Prop :=
  match c' with
  | CBase b' => forall hd, b_shape b' = Some (SRec hd) -> exists b, c = CBase b /\ b_shape b = Some (SRec hd)
  | _ => True
  end.
Lemma ages_write s a c c' : nth_error (heap s) a = Some c -> mild c c' -> pres_at ages s (Heap.write a c').
Proof.
  intros N M H x b hd Rx G Q. unfold after, Heap.write in G. cbn in G. apply get_base_nth in G.
  destruct (Nat.eq_dec a x) as [<-|Ne].
  - rewrite (nth_error_upd_eq _ _ _ _ N) in G. injection G as ->. destruct (M hd Q) as (b0 & -> & Q0).
    apply (H a b0 hd Rx); [now apply get_base_nth|exact Q0].
  - rewrite nth_error_upd_neq in G by auto. apply (H x b hd Rx); [now apply get_base_nth|exact Q].
Qed.
Lemma ages_alloc c s : (forall b hd, c = CBase b -> b_shape b <> Some (SRec hd)) -> pres_at ages s (alloc c).
Proof.
  intros M H x b hd Rx G Q. unfold after, alloc in G. cbn in G. apply get_base_nth in G.
  destruct (Nat.eq_dec x (List.length (heap s))) as [->|Ne].
  - rewrite nth_error_app2, Nat.sub_diag in G by lia. injection G as ->. elim (M b hd eq_refl Q).
  - assert (L : x < List.length (heap s)). { assert (x < List.length (heap s ++ [c])) by (apply nth_error_Some; congruence). rewrite app_length in H0. cbn in H0. lia. }
    rewrite nth_error_app1 in G by exact L. apply (H x b hd Rx); [now apply get_base_nth|exact Q].
Qed.
Lemma ages_heap s s' : heap s' = heap s -> ages s s'. Proof. unfold ages. now intros ->. Qed.
Ltac ag := repeat (pa ages ages_refl ages_trans).

Lemma ages_visited a v s : pres_at ages s (upd_base a (set_visited v)).
Proof.
  unfold upd_base. ag. apply get_base_nth in E. eapply ages_write; [exact E|]. cbn. eauto.
Qed.
Lemma ages_props_set m k p s : pres_at ages s (props_set m k p).
Proof. unfold props_set. ag. apply get_props_nth in E. eapply ages_write; [exact E|exact I]. Qed.
Lemma ages_slice_set m i x s : pres_at ages s (slice_set m i x).
Proof. unfold slice_set. ag. apply get_slice_nth in E. eapply ages_write; [exact E|exact I]. Qed.
Lemma ages_upd_arr a f s : pres_at ages s (upd_arr a f).
Proof. unfold upd_arr. ag. apply get_base_nth in E. eapply ages_write; [exact E|]. cbn. discriminate. Qed.

Lemma ages_make_recursive a s : pres_at ages s (make_recursive a).
Proof.
  unfold make_recursive. ag.
  - unfold make_base. ag; try (apply ages_heap; reflexivity); apply ages_alloc; intros b hd; try discriminate. intros [= <-]. discriminate.
  - unfold upd_base. ag. intros H y b hd Ry G Q. unfold after, Heap.write in G. cbn in G. apply get_base_nth in G.
    apply get_base_nth in E, E1.
    assert (L : x0 = List.length (heap s) + 3).
    { unfold make_base, bind, gen_id, alloc, put_shape, ret in E0. cbn in E0. injection E0 as <- _. rewrite !app_length. cbn. lia. }
    destruct (Nat.eq_dec x0 y) as [<-|Ne].
    + rewrite (nth_error_upd_eq _ _ _ _ E1) in G. injection G as <-. cbn in Q. injection Q as <-.
      assert (a < List.length (heap s)) by (apply nth_error_Some; congruence). lia.
    + rewrite nth_error_upd_neq in G by auto. apply (H y b hd Ry); [now apply get_base_nth|exact Q].
Qed.

Section Mark.
Variable n : nat.
Variable rec : addr -> M (option addr).
Hypothesis Hrec : forall a s, pres_at ages s (rec a).
Lemma ages_mark_map m s : pres_at ages s (mark_map n rec m).
Proof.
  unfold mark_map. apply pres_loop_props; auto using ages_refl; [apply ages_trans|].
  intros k p s'. ag; auto. apply ages_props_set.
Qed.
Lemma ages_mark_shape a s : pres_at ages s (mark_shape n rec a).
Proof.
  unfold mark_shape, mark_optmap, cur_obj, cur_arr. ag; auto using ages_mark_map, ages_upd_arr.
  apply pres_loop_slice; auto using ages_refl; [apply ages_trans|]. intros i' x' s'. ag; auto. apply ages_slice_set.
Qed.
End Mark.

Lemma ages_mark n : forall a s, pres_at ages s (mark n a).
Proof.
  induction n as [|n IH]; intros a s; simpl; [ag|].
  ag; auto using ages_make_recursive, ages_visited, ages_mark_shape, ages_mark_map.
Qed.
Lemma ages_mark_all n l : forall s, pres_at ages s (mark_all n l).
Proof. induction l as [|a l IH]; intros s; cbn [mark_all]; [apply ages_refl|]. ag; auto using ages_mark. Qed.
Lemma ages_mark_fragments n L fs order : forall s, pres_at ages s (mark_fragments n order L fs).
Proof.
  induction order as [|k order IH]; intros s; simpl; [apply ages_refl|].
  destruct (oget k fs) as [f|]; auto.
  apply pres_at_bind; [exact ages_trans| |intros; apply IH].
  destruct f as [l|uses [a|]|]; unfold mark_fragment; try apply ages_refl; eauto using ages_mark_all.
  destruct (nth_error L l) as [lib|]; [|apply ages_refl].
  ag; auto using ages_mark_all.
Qed.
End Ages.

(** * Validation returns *)

Section Returns.
Variable R : addr -> Prop.
Variables (n0 : nat) (EP : enum -> Prop) (RS : Prop) (O : oracle) (h : list cell).
Hypothesis F : Shapes_calm.fine R n0 EP False RS h.
Hypothesis Old : older R h.
Let L := List.length h.

Lemma lv_base a : Shapes_calm.lv R h a Shapes_calm.TBase -> exists b, get_base h a = Some b /\ Shapes_calm.b_fine R EP False RS h b.
Proof.
  intros (Ra & c & N & S). destruct c as [b| | | |]; try discriminate. exists b. split; [now apply get_base_nth|]. exact (proj2 F _ _ Ra N).
Qed.
Lemma lv_props o : Shapes_calm.olv R h o Shapes_calm.TProps ->
  exists ps, opt_props h o = Some ps /\ Shapes_calm.props_lv R h ps.
Proof.
  intros H. destruct o as [m|]; [|exists []; split; [reflexivity|intros k p []]].
  destruct (H m eq_refl) as (Rm & c & N & S). destruct c as [|ps| | |]; try discriminate.
  exists ps. split; [cbn; now apply get_props_nth|]. exact (proj2 F _ _ Rm N).
Qed.

Lemma enough n : forall a v, Shapes_calm.lv R h a Shapes_calm.TBase -> gsize v * S L + a < n -> decided (validate n O h a v).
Proof.
  induction n as [|n IH]; intros a v A Lt; [lia|].
  destruct (lv_base a A) as (b & G & Fb). destruct (Shapes_calm.f_shape _ _ _ _ _ _ Fb) as (sh & S & _ & Fs).
  assert (Small : forall x w, gsize w < gsize v -> Shapes_calm.lv R h x Shapes_calm.TBase -> decided (validate n O h x w)).
  { intros x w Lw X. apply IH; [exact X|]. destruct (lv_base x X) as (bx & Gx & _). apply get_base_lt in Gx. fold L in Gx.
    assert (gsize w * Datatypes.S L + Datatypes.S L <= gsize v * Datatypes.S L).
    { replace (gsize w * Datatypes.S L + Datatypes.S L) with (Datatypes.S (gsize w) * Datatypes.S L) by lia. apply Nat.mul_le_mono_r. lia. }
    lia. }
  rewrite validate_S, G, S. destruct (scalar_validate O sh v) as [r|] eqn:Er; [exact (scalar_decided _ _ _ _ Er)|].
  destruct sh; simpl in Er; try discriminate.
  - unfold array_validate. destruct v as [| | | | | | |l| |]; try now right. cbv zeta.
    destruct (below _ _ _); [now right|]. destruct (above _ _ _); [now right|].
    destruct (items_loop_decided O (validate n O h) (a_items f)
      (match a_uniq f with Some true => true | _ => false end) l []) as [[hs ->]| ->].
    + intros i x Hi Hx. apply Small; [now apply gsize_arr|exact (Fs i Hi)].
    + cbn [rbind]. destruct (_ && _)%bool; [now right|now left].
    + now right.
  - destruct Fs as [F1 F2]. destruct (lv_props _ F1) as (ps & -> & P1). destruct (lv_props _ F2) as (pps & -> & P2).
    unfold object_validate. destruct v as [| | | | | | | |kvs|]; try now right. cbv zeta.
    destruct (below _ _ _); [now right|]. destruct (above _ _ _); [now right|].
    destruct (missing_required _ _); [now right|].
    apply props_loop_decided. intros k x k' p Hin [Hp|Hp]; (apply Small; [exact (gsize_map _ _ _ Hin)|]).
    + exact (P1 _ _ Hp).
    + exact (P2 _ _ Hp).
  - now destruct Fs.
  - destruct Fs as [_ Fh]. apply IH; [exact Fh|]. pose proof (Old _ _ _ (proj1 A) G S). lia.
Qed.
Lemma all_return a v : Shapes_calm.lv R h a Shapes_calm.TBase -> returns O h a v.
Proof.
  intros A. destruct (enough (Datatypes.S (gsize v * Datatypes.S L + a)) a v A) as [H|H]; [lia|left|right]; eexists; exact H.
Qed.
End Returns.

(** * After unwrapping a parsed model *)

Section After.
Variable E : denv.
Variables (n : nat) (O : oracle) (o1 o2 o3 : list string) (text path : string) (ep : entry_point) (p : pst).
Hypothesis P : parse_string E n O o1 o2 o3 false false text path = (Ok ep, p).
Hypothesis Pl : Spec_Calm.plain_enums (heap (p_st p)).
Hypothesis Un : Spec_Calm.union_free (heap (p_st p)).
Let h0 := heap (p_st p).

Lemma start_fine_norec : Shapes_calm.fine (Shapes_calm.live h0) (List.length h0) Shapes_calm.flat False False h0.
Proof.
  destruct (Parse_fresh.parse_fresh _ _ _ _ _ _ _ _ _ _ P) as [(W & _ & _ & Fr) _].
  apply Shapes_calm.start_fine; [exact W| |exact Un|].
  - intros a b sh G Q l v Ee J. exact (Pl _ _ _ _ _ G Q Ee J).
  - intros a b hd G Q. destruct (Fr a b G) as (_ & _ & N). exact (N hd Q).
Qed.

Theorem unwrapped_return m q1 q2 R s loc a : unwrap_shapes m q1 q2 (raml_of p) (p_st p) = (Ok R, s) -> declared_in R loc a ->
  forall O' v, returns O' (heap s) a v.
Proof.
  intros U D O' v.
  pose proof (Model_calm.parsed_libs _ _ _ _ _ _ _ _ _ _ P) as PL. pose proof (Model_calm.parsed_frags _ _ _ _ _ _ _ _ _ _ P) as PF.
  pose proof (Model_calm.parsed_exts _ _ _ _ _ _ _ _ _ _ P Pl Un) as PE. pose proof (Model_calm.parsed_wf _ _ _ _ _ _ _ _ _ _ P) as W.
  destruct (Shapes_calm.calm_unwrap_shapes _ _ (Shapes_calm.live_new h0) Shapes_calm.flat False True Shapes_calm.flat_none Shapes_calm.flat_inherit I (fun f => f)
    m q1 q2 (raml_of p) (p_st p) (Shapes_calm.free_fine _ W Pl Un) (conj (conj PL PF) PE)) as (_ & F & _ & C).
  rewrite U in F, C. cbn [fst snd] in F, C. destruct (C R eq_refl) as ((CL & CF) & _).
  assert (Old : older (Shapes_calm.live h0) (heap s)).
  { unfold unwrap_shapes in U. apply bind_inv in U. destruct U as ([] & s0 & E0 & U). injection E0 as <-.
    apply bind_inv in U. destruct U as (u & s1 & E1 & U). destruct (u_ok u); [|discriminate]. cbn [negb] in U.
    apply bind_inv in U. destruct U as ([] & s2 & E2 & U). apply bind_inv in U. destruct U as ([ok l] & s3 & E3 & U).
    cbn [fst snd] in U. destruct ok; [|discriminate]. cbn [negb] in U. injection U as _ <-.
    assert (s3 = s2) as ->.
    { pose proof (Pipeline_proofs.unwrap_exts_same (u_annots u) (r_exts (raml_of p)) s2) as Q. unfold after in Q. rewrite E3 in Q. exact Q. }
    pose proof (ages_mark_fragments (Shapes_calm.live h0) m (u_libs u) (u_frags u) q2 s1) as Ag. unfold pres_at, after in Ag. rewrite E2 in Ag. apply Ag.
    destruct (Shapes_calm.calm_unwrap_fragments _ _ (Shapes_calm.live_new h0) Shapes_calm.flat False False Shapes_calm.flat_none Shapes_calm.flat_inherit (fun f => f)
      m q1 (Ust true (r_libs (raml_of p)) (r_frags (raml_of p)) [] []) (St (heap (p_st p)) [] (st_nextid (p_st p))) start_fine_norec) as (_ & F1 & _).
    { split; [exact (conj PL PF)|]. split; intros loc' x k y J; discriminate. }
    rewrite E1 in F1. cbn [snd] in F1. intros x b hd Rx G Q. exfalso. apply get_base_nth in G.
    pose proof (proj2 F1 _ _ Rx G) as B. destruct (Shapes_calm.f_shape _ _ _ _ _ _ B) as (sh & S & _ & Fs). rewrite Q in S. injection S as <-. exact (proj1 Fs). }
  apply (all_return (Shapes_calm.live h0) (List.length h0) Shapes_calm.flat True O' (heap s) F Old).
  destruct D as [l lib k _ J T|l lib k _ J T|uses J].
  - exact (proj1 (CL lib (nth_error_In _ _ J)) k a T).
  - exact (proj2 (CL lib (nth_error_In _ _ J)) k a T).
  - destruct (CF _ _ J) as (y & [= <-] & Y). exact Y.
Qed.
End After.
