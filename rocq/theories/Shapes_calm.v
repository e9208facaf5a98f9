(** Unwrapping, inheritance, cloning, recursion marking, checking and validation
    on a model without nil or dangling references do not panic (C46). *)
From Coq Require Import ZArith List String Bool Lia Floats.SpecFloat.
From Verif Require Import Base Scalars Heap Heap_lemmas Validate Names Pipeline Spec_Validate Spec_Model.
From Verif Require Spec_Calm Pipeline_proofs.
Import ListNotations.
Open Scope string_scope.
Open Scope list_scope.
Open Scope nat_scope.
Open Scope m_scope.

(** Slices with their length, which no write changes. *)
Inductive sort := TBase | TProps | TFacets | TSlice (n : nat) | TDT.
Definition sort_of (c : cell) : sort :=
  match c with CBase _ => TBase | CProps _ => TProps | CFacets _ => TFacets | CSlice l => TSlice (List.length l) | CDT _ => TDT end.

Definition flat (e : enum) : Prop := forall l v, e = Some l -> In v l -> Spec_Calm.comparable v.

Section Live.
Variable R : addr -> Prop.
Variable n0 : nat.
Hypothesis HR : forall a, n0 <= a -> R a.
(** What is known of enums; whether there are unions, and recursive shapes. *)
Variable EP : enum -> Prop.
Variable US RS : Prop.

Definition lv (h : list cell) (a : addr) (k : sort) : Prop := R a /\ exists c, nth_error h a = Some c /\ sort_of c = k.

Definition slv (h : list cell) (a : addr) : Prop := exists n, lv h a (TSlice n).
Definition olv h (o : option addr) k : Prop := forall a, o = Some a -> lv h a k.

Definition sh_fine (h : list cell) (sh : shape) : Prop :=
  EP (Spec_Calm.enum_of sh) /\
  match sh with
  | SArray f => olv h (a_items f) TBase
  | SObject f => olv h (o_props f) TProps /\ olv h (o_pprops f) TProps
  | SUnion sl _ => US /\ slv h sl
  | SRec hd => RS /\ lv h hd TBase
  | _ => True
  end.

Record b_fine (h : list cell) (b : base) : Prop := {
  f_facets : lv h (b_facets b) TFacets;
  f_fdefs : lv h (b_fdefs b) TProps;
  f_inherits : slv h (b_inherits b);
  f_link : olv h (b_link b) TDT;
  f_alias : olv h (b_alias b) TBase;
  f_shape : exists sh, b_shape b = Some sh /\ sh_fine h sh
}.

Definition all_lv h (l : list addr) : Prop := forall x, In x l -> lv h x TBase.
Definition props_lv h (m : omap prop) : Prop := forall k p, In (k, p) m -> lv h (p_base p) TBase.

Definition c_fine (h : list cell) (c : cell) : Prop :=
  match c with
  | CBase b => b_fine h b
  | CProps m => props_lv h m
  | CFacets _ => True
  | CSlice l => all_lv h l
  | CDT o => exists y, o = Some y /\ lv h y TBase
  end.

Definition fine (h : list cell) : Prop := n0 <= List.length h /\ forall a c, R a -> nth_error h a = Some c -> c_fine h c.

Definition grow (h h' : list cell) : Prop := forall a k, lv h a k -> lv h' a k.

Lemma grow_refl h : grow h h. Proof. intros a k H. exact H. Qed.
Lemma grow_trans h1 h2 h3 : grow h1 h2 -> grow h2 h3 -> grow h1 h3. Proof. intros A B a k H. apply B, A, H. Qed.

Definition firm (P : list cell -> Prop) : Prop := forall h h', grow h h' -> P h -> P h'.

Lemma firm_true : firm (fun _ => True). Proof. intros h h' _ _. exact I. Qed.
Lemma firm_pure (P : Prop) : firm (fun _ => P). Proof. intros h h' _ H. exact H. Qed.
Lemma firm_lv a k : firm (fun h => lv h a k). Proof. intros h h' G H. exact (G _ _ H). Qed.
Lemma firm_slv a : firm (fun h => slv h a). Proof. intros h h' G [n H]. exists n. exact (G _ _ H). Qed.
Lemma firm_olv o k : firm (fun h => olv h o k). Proof. intros h h' G H a E. exact (G _ _ (H a E)). Qed.
Lemma firm_and P Q : firm P -> firm Q -> firm (fun h => P h /\ Q h).
Proof. intros A B h h' G [X Y]. split; [exact (A _ _ G X)|exact (B _ _ G Y)]. Qed.
Lemma firm_all l : firm (fun h => all_lv h l). Proof. intros h h' G H x J. exact (G _ _ (H x J)). Qed.
Lemma firm_props m : firm (fun h => props_lv h m). Proof. intros h h' G H k p J. exact (G _ _ (H k p J)). Qed.
Lemma firm_sh sh : firm (fun h => sh_fine h sh).
Proof.
  intros h h' G [F H]. split; [exact F|]. destruct sh; auto.
  - exact (firm_olv _ _ _ _ G H).
  - destruct H as [A B]. split; [exact (firm_olv _ _ _ _ G A)|exact (firm_olv _ _ _ _ G B)].
  - destruct H as [A B]. split; [exact A|exact (firm_slv _ _ _ G B)].
  - destruct H as [A B]. split; [exact A|exact (G _ _ B)].
Qed.
Lemma firm_b b : firm (fun h => b_fine h b).
Proof.
  intros h h' G [A B C D E (sh & S & F)]. split; auto.
  - exact (firm_slv _ _ _ G C).
  - exact (firm_olv _ _ _ _ G D).
  - exact (firm_olv _ _ _ _ G E).
  - exists sh. split; [exact S|exact (firm_sh _ _ _ G F)].
Qed.
Lemma firm_c c : firm (fun h => c_fine h c).
Proof.
  intros h h' G H. destruct c; simpl in *; auto.
  - exact (firm_b _ _ _ G H).
  - exact (firm_props _ _ _ G H).
  - exact (firm_all _ _ _ G H).
  - destruct H as (y & E & L). exists y. auto.
Qed.
Definition cm_lv h (cm : cmap) : Prop := forall k a, In (k, a) cm -> lv h a TBase.
Lemma firm_cm cm : firm (fun h => cm_lv h cm). Proof. intros h h' G H k a J. exact (G _ _ (H k a J)). Qed.

(** A computation that keeps the model fine and does not panic. *)
Definition calm {A} (m : M A) (Pre : list cell -> Prop) (Post : A -> list cell -> Prop) : Prop :=
  forall s, fine (heap s) -> Pre (heap s) ->
    fst (m s) <> Panic /\ fine (heap (snd (m s))) /\ grow (heap s) (heap (snd (m s)))
    /\ forall x, fst (m s) = Ok x -> Post x (heap (snd (m s))).

Lemma calm_ret {A} (x : A) (Pre : list cell -> Prop) (Post : A -> list cell -> Prop) : (forall h, Pre h -> Post x h) -> calm (ret x) Pre Post.
Proof. intros H s F P. cbn. split; [discriminate|]. split; [exact F|]. split; [apply grow_refl|]. intros y [= <-]. auto. Qed.
Lemma calm_fail {A} (Pre : list cell -> Prop) (Post : A -> list cell -> Prop) : calm fail Pre Post.
Proof. intros s F P. cbn. split; [discriminate|]. split; [exact F|]. split; [apply grow_refl|discriminate]. Qed.
Lemma calm_diverge {A} (Pre : list cell -> Prop) (Post : A -> list cell -> Prop) : calm diverge Pre Post.
Proof. intros s F P. cbn. split; [discriminate|]. split; [exact F|]. split; [apply grow_refl|discriminate]. Qed.
Lemma calm_lift {A} (r : res A) (Pre : list cell -> Prop) (Post : A -> list cell -> Prop) : r <> Panic -> (forall x h, r = Ok x -> Pre h -> Post x h) -> calm (lift r) Pre Post.
Proof. intros N H s F P. cbn. split; [exact N|]. split; [exact F|]. split; [apply grow_refl|]. intros x E. exact (H x _ E P). Qed.
Lemma calm_bind {A B} (m : M A) (f : A -> M B) (Pre : list cell -> Prop) Q (Post : B -> list cell -> Prop) :
  firm Pre -> calm m Pre Q -> (forall x, calm (f x) (fun h => Pre h /\ Q x h) Post) -> calm (bind m f) Pre Post.
Proof.
  intros Fm Hm Hf s F P. destruct (Hm s F P) as (N & F' & G & Qx). unfold bind. destruct (m s) as [r s']. cbn [fst snd] in *.
  destruct r as [x| | |]; cbn [fst snd].
  - destruct (Hf x s' F' (conj (Fm _ _ G P) (Qx x eq_refl))) as (N2 & F2 & G2 & Q2). split; [exact N2|]. split; [exact F2|].
    split; [exact (grow_trans _ _ _ G G2)|exact Q2].
  - split; [discriminate|]. split; [exact F'|]. split; [exact G|discriminate].
  - congruence.
  - split; [discriminate|]. split; [exact F'|]. split; [exact G|discriminate].
Qed.
Lemma calm_sub {A} (m : M A) (Pre Pre' : list cell -> Prop) (Post Post' : A -> list cell -> Prop) :
  calm m Pre' Post' -> (forall h, Pre h -> Pre' h) -> (forall x h, Post' x h -> Post x h) -> calm m Pre Post.
Proof. intros H A1 B1 s F P. destruct (H s F (A1 _ P)) as (N & F' & G & Q). split; [exact N|]. split; [exact F'|]. split; [exact G|]. intros x E. exact (B1 _ _ (Q x E)). Qed.
Lemma calm_pre {A} (m : M A) (Pre Pre' : list cell -> Prop) (Post : A -> list cell -> Prop) :
  calm m Pre' Post -> (forall h, Pre h -> Pre' h) -> calm m Pre Post.
Proof. intros H A1. apply (calm_sub _ _ _ _ _ H); auto. Qed.
Lemma calm_pure {A} (m : M A) (P : Prop) (Pre : list cell -> Prop) (Post : A -> list cell -> Prop) :
  (forall h, Pre h -> P) -> (P -> calm m Pre Post) -> calm m Pre Post.
Proof. intros A1 H s F X. exact (H (A1 _ X) s F X). Qed.
Lemma calm_try {A} (m : M A) (Pre : list cell -> Prop) (Post : A -> list cell -> Prop) :
  calm m Pre Post -> calm (try m) Pre (fun o h => forall x, o = Some x -> Post x h).
Proof.
  intros H s F P. destruct (H s F P) as (N & F' & G & Q). unfold try. destruct (m s) as [r s']. cbn [fst snd] in *.
  destruct r as [x| | |]; cbn [fst snd]; (split; [try discriminate; congruence|]); (split; [exact F'|]); (split; [exact G|]); try discriminate.
  - intros y [= <-] z [= <-]. auto.
  - intros y [= <-] z. discriminate.
Qed.

(** ** Reads *)
Lemma lv_base h a : lv h a TBase -> exists b, get_base h a = Some b.
Proof. intros (_ & c & H & K). destruct c; try discriminate. exists b. now apply get_base_nth. Qed.
Lemma lv_props h a : lv h a TProps -> exists b, get_props h a = Some b.
Proof. intros (_ & c & H & K). destruct c; try discriminate. eexists. apply get_props_nth. exact H. Qed.
Lemma lv_facets h a : lv h a TFacets -> exists b, get_facets h a = Some b.
Proof. intros (_ & c & H & K). destruct c; try discriminate. eexists. apply get_facets_nth. exact H. Qed.
Lemma lv_slice h a : slv h a -> exists b, get_slice h a = Some b.
Proof. intros (n & _ & c & H & K). destruct c; try discriminate. eexists. apply get_slice_nth. exact H. Qed.
Lemma lv_dt h a : lv h a TDT -> exists b, get_dt h a = Some b.
Proof. intros (_ & c & H & K). destruct c; try discriminate. eexists. apply get_dt_nth. exact H. Qed.

Lemma calm_rd {A} (get : list cell -> addr -> option A) a (Pre : list cell -> Prop) (Post : A -> list cell -> Prop) :
  (forall h, fine h -> Pre h -> exists x, get h a = Some x /\ Post x h) -> calm (rd get a) Pre Post.
Proof.
  intros H s F P. destruct (H _ F P) as (x & G & Q). unfold rd. rewrite G. cbn [fst snd].
  split; [discriminate|]. split; [exact F|]. split; [apply grow_refl|]. intros y [= <-]. exact Q.
Qed.
Lemma calm_base a (Pre : list cell -> Prop) : (forall h, Pre h -> lv h a TBase) -> calm (rd get_base a) Pre (fun b h => b_fine h b).
Proof.
  intros H. apply calm_rd. intros h [_ F] P. specialize (H h P). destruct (lv_base _ _ H) as (b & G). exists b. split; auto.
  apply get_base_nth in G. exact (F a _ (proj1 H) G).
Qed.
Lemma calm_props a (Pre : list cell -> Prop) : (forall h, Pre h -> lv h a TProps) -> calm (rd get_props a) Pre (fun m h => props_lv h m).
Proof.
  intros H. apply calm_rd. intros h [_ F] P. specialize (H h P). destruct (lv_props _ _ H) as (b & G). exists b. split; auto.
  apply get_props_nth in G. exact (F a _ (proj1 H) G).
Qed.
Lemma calm_slice a (Pre : list cell -> Prop) : (forall h, Pre h -> slv h a) -> calm (rd get_slice a) Pre (fun m h => all_lv h m).
Proof.
  intros H. apply calm_rd. intros h [_ F] P. specialize (H h P). destruct (lv_slice _ _ H) as (b & G). exists b. split; auto.
  apply get_slice_nth in G. destruct H as (n & Ra & _). exact (F a _ Ra G).
Qed.
Lemma calm_facets a (Pre : list cell -> Prop) : (forall h, Pre h -> lv h a TFacets) -> calm (rd get_facets a) Pre (fun m h => True).
Proof.
  intros H. apply calm_rd. intros h [_ F] P. specialize (H h P). destruct (lv_facets _ _ H) as (b & G). exists b. split; auto.
Qed.
Lemma calm_dt a (Pre : list cell -> Prop) : (forall h, Pre h -> lv h a TDT) -> calm (rd get_dt a) Pre (fun d h => exists y, d = Some y /\ lv h y TBase).
Proof.
  intros H. apply calm_rd. intros h [_ F] P. specialize (H h P). destruct (lv_dt _ _ H) as (b & G). exists b. split; auto.
  apply get_dt_nth in G. exact (F a _ (proj1 H) G).
Qed.

(** ** Writes *)
Lemma calm_write a c (Pre : list cell -> Prop) : (forall h, Pre h -> lv h a (sort_of c) /\ c_fine h c) -> calm (Heap.write a c) Pre (fun _ _ => True).
Proof.
  intros H s [L F] P. destruct (H _ P) as [(Ra & c0 & N & K) C]. cbn [fst snd Heap.write heap].
  assert (G : grow (heap s) (upd a c (heap s))).
  { intros x k (Rx & cx & Nx & Kx). split; auto. destruct (Nat.eq_dec a x) as [->|Ne].
    - rewrite N in Nx. injection Nx as <-. exists c. split; [|congruence]. apply nth_error_upd_lt. eapply nth_error_lt; eauto.
    - exists cx. split; auto. rewrite nth_error_upd_neq; auto. }
  split; [discriminate|]. split; [|split; [exact G|auto]]. split; [rewrite upd_length; exact L|].
  intros x cx Rx Nx. destruct (Nat.eq_dec a x) as [->|Ne].
  - rewrite nth_error_upd_lt in Nx by (eapply nth_error_lt; eauto). injection Nx as <-. exact (firm_c _ _ _ G C).
  - rewrite nth_error_upd_neq in Nx by auto. exact (firm_c _ _ _ G (F _ _ Rx Nx)).
Qed.
Lemma grow_app h x : grow h (h ++ x).
Proof. intros a k (Ra & c & N & K). split; auto. exists c. split; auto. rewrite nth_error_app1; auto. eapply nth_error_lt; eauto. Qed.
Lemma calm_alloc c (Pre : list cell -> Prop) : (forall h, Pre h -> c_fine h c) -> calm (alloc c) Pre (fun a h => lv h a (sort_of c)).
Proof.
  intros H s [L F] P. specialize (H _ P). cbn [fst snd alloc heap]. pose proof (grow_app (heap s) [c]) as G.
  split; [discriminate|]. split; [|split; [exact G|]].
  - split; [rewrite app_length; lia|]. intros x cx Rx Nx. destruct (Nat.lt_ge_cases x (List.length (heap s))) as [Lt|Ge].
    + rewrite nth_error_app1 in Nx by auto. exact (firm_c _ _ _ G (F _ _ Rx Nx)).
    + rewrite nth_error_app2 in Nx by auto. destruct (x - List.length (heap s)) as [|[|]]; try discriminate. injection Nx as <-. exact (firm_c _ _ _ G H).
  - intros x [= <-]. split; [apply HR; exact L|]. exists c. split; auto. apply nth_error_snoc.
Qed.
Lemma calm_gen_id (Pre : list cell -> Prop) : calm gen_id Pre (fun _ _ => True).
Proof. intros s F P. cbn. split; [discriminate|]. split; [exact F|]. split; [apply grow_refl|auto]. Qed.
Lemma calm_put_shape a (Pre : list cell -> Prop) : calm (put_shape a) Pre (fun _ _ => True).
Proof. intros s F P. cbn. split; [discriminate|]. split; [exact F|]. split; [apply grow_refl|auto]. Qed.
Lemma calm_upd_base a f (Pre : list cell -> Prop) : firm Pre -> (forall h, Pre h -> lv h a TBase) -> (forall h b, Pre h -> b_fine h b -> b_fine h (f b)) -> calm (upd_base a f) Pre (fun _ _ => True).
Proof.
  intros Fm L H. unfold upd_base. apply (calm_bind _ _ _ _ _ Fm (calm_base a Pre L)). intros b. apply calm_write. intros h [P B].
  split; [exact (L _ P)|]. exact (H _ _ P B).
Qed.
Definition pair_ok {X} (ok : list cell -> X -> Prop) (r : X * cmap) (h : list cell) : Prop := ok h (fst r) /\ cm_lv h (snd r).

Ltac firmly := unfold pair_ok; cbn [fst snd]; repeat first
  [ apply firm_lv | apply firm_slv | apply firm_olv | apply firm_all | apply firm_props | apply firm_sh | apply firm_b
  | apply firm_cm | apply firm_c | apply firm_true | apply firm_pure | assumption | apply firm_and ].

Ltac here := let h := fresh in let A := fresh in intros h A; decompose [and] A; assumption.

(** ** Loops *)
Definition any_ {A} (x : A) (h : list cell) : Prop := True.

Lemma calm_bind' {A B} (m : M A) (f : A -> M B) (Pre : list cell -> Prop) Q (Post : B -> list cell -> Prop) :
  calm m Pre Q -> firm Pre -> (forall x, calm (f x) (fun h => Pre h /\ Q x h) Post) -> calm (bind m f) Pre Post.
Proof. intros A1 B1 C1. exact (calm_bind _ _ _ _ _ B1 A1 C1). Qed.

Lemma calm_loop_props n m body (Pre : list cell -> Prop) : firm Pre -> (forall h, Pre h -> lv h m TProps) ->
  (forall k p, calm (body k p) (fun h => Pre h /\ lv h (p_base p) TBase) any_) ->
  forall i, calm (loop_props n m i body) Pre any_.
Proof.
  intros Fm L H. induction n as [|n IH]; intros i; [apply calm_diverge|]. cbn [loop_props].
  eapply calm_bind'; [apply calm_props; exact L|firmly|]. intros l. destruct (nth_error l i) as [[k p]|] eqn:E.
  - eapply calm_bind'.
    + eapply calm_pre; [apply H|]. intros h [P A1]. split; [exact P|]. exact (A1 k p (nth_error_In _ _ E)).
    + firmly.
    + intros x. eapply calm_pre; [apply IH|]. intros h [[P _] _]. exact P.
  - apply calm_ret. constructor.
Qed.
Lemma calm_loop_slice n m body (Pre : list cell -> Prop) : firm Pre -> (forall h, Pre h -> slv h m) ->
  (forall i a, calm (body i a) (fun h => Pre h /\ lv h a TBase) any_) ->
  forall i, calm (loop_slice n m i body) Pre any_.
Proof.
  intros Fm L H. induction n as [|n IH]; intros i; [apply calm_diverge|]. cbn [loop_slice].
  eapply calm_bind'; [apply calm_slice; exact L|firmly|]. intros l. destruct (nth_error l i) as [a|] eqn:E.
  - eapply calm_bind'.
    + eapply calm_pre; [apply H|]. intros h [P A1]. split; [exact P|]. exact (A1 a (nth_error_In _ _ E)).
    + firmly.
    + intros x. eapply calm_pre; [apply IH|]. intros h [[P _] _]. exact P.
  - apply calm_ret. constructor.
Qed.
Lemma in_oset {A} k (v : A) m k' x : In (k', x) (oset k v m) -> (k' = k /\ x = v) \/ In (k', x) m.
Proof.
  induction m as [|[k0 v0] m IH]; simpl.
  - intros [E|[]]. injection E as <- <-. auto.
  - destruct (String.eqb k k0) eqn:E; simpl.
    + apply String.eqb_eq in E. subst k0. intros [H|H]; [injection H as <- <-; auto|auto].
    + intros [H|H]; [auto|]. destruct (IH H) as [?|?]; auto.
Qed.
Lemma in_upd {A} i (x y : A) l : In y (upd i x l) -> y = x \/ In y l.
Proof.
  revert i. induction l as [|z l IH]; intros [|i]; simpl; auto.
  - intros [?|?]; auto.
  - intros [?|H]; auto. destruct (IH _ H); auto.
Qed.
Lemma calm_props_set m k p (Pre : list cell -> Prop) : firm Pre -> (forall h, Pre h -> lv h m TProps /\ lv h (p_base p) TBase) -> calm (props_set m k p) Pre any_.
Proof.
  intros Fm H. unfold props_set. eapply calm_bind'; [apply calm_props; intros h P; apply (H h P)|firmly|]. intros l.
  apply calm_write. intros h [P A1]. destruct (H h P) as [B C]. split; [exact B|]. intros k' p' J. destruct (in_oset _ _ _ _ _ J) as [[_ ->]|J']; [exact C|exact (A1 _ _ J')].
Qed.
Lemma calm_slice_set sl i x n (Pre : list cell -> Prop) : (forall h, Pre h -> lv h sl (TSlice n) /\ lv h x TBase) -> i < n -> calm (slice_set sl i x) Pre any_.
Proof.
  intros H N s F P. unfold slice_set. destruct (H _ P) as [(Ra & c & G & K) C]. destruct c as [| | |l|]; try discriminate. injection K as K.
  unfold bind, rd. rewrite (proj2 (get_slice_nth _ _ _) G). destruct (nth_error l i) eqn:E.
  - apply (calm_write sl (CSlice (upd i x l)) (fun h => h = heap s)); auto. intros h ->. split.
    + split; [exact Ra|]. exists (CSlice l). split; [exact G|]. cbn. now rewrite upd_length.
    + intros y J. destruct (in_upd _ _ _ _ J) as [->|J']; [exact C|]. exact (proj2 F _ _ Ra G y J').
  - exfalso. apply nth_error_None in E. lia.
Qed.
Lemma calm_slice_n a n (Pre : list cell -> Prop) : (forall h, Pre h -> lv h a (TSlice n)) -> calm (rd get_slice a) Pre (fun m h => all_lv h m /\ List.length m = n).
Proof.
  intros H. apply calm_rd. intros h [_ F] P. destruct (H h P) as (Ra & c & G & K). destruct c as [| | |l|]; try discriminate. exists l. split; [now apply get_slice_nth|].
  split; [exact (F a _ Ra G)|]. now injection K.
Qed.

(** ** Clone *)
Lemma cm_get_in k (cm : cmap) a : cm_get k cm = Some a -> exists k', In (k', a) cm.
Proof.
  induction cm as [|[k' a'] cm IH]; simpl; [discriminate|]. destruct (Z.eqb k k').
  - intros [= <-]. exists k'. auto.
  - intros H. destruct (IH H) as (k2 & J). exists k2. auto.
Qed.
Section Clone.
Variable rec : cmap -> addr -> M (addr * cmap).
Hypothesis Hrec : forall cm a, calm (rec cm a) (fun h => cm_lv h cm /\ lv h a TBase) (pair_ok (fun h x => lv h x TBase)).

Lemma calm_clone_list l : forall cm, calm (clone_list rec cm l) (fun h => cm_lv h cm /\ all_lv h l) (pair_ok (fun h x => all_lv h x)).
Proof.
  induction l as [|a l IH]; intros cm; cbn [clone_list].
  - apply calm_ret. intros h [A1 _]. split; [intros x []|exact A1].
  - eapply calm_bind'; [eapply calm_pre; [apply Hrec|]|firmly|].
    + intros h [A1 B]. split; [exact A1|]. apply B. now left.
    + intros [a' cm']. eapply calm_bind'; [eapply calm_pre; [apply IH|]| |].
      * intros h [[A1 B] [C D]]. split; [exact D|]. intros x J. apply B. now right.
      * firmly.
      * intros [l' cm'']. apply calm_ret. intros h [[_ [A1 _]] [B C]]. split; [|exact C]. intros x [<-|J]; [exact A1|exact (B x J)].
Qed.
Lemma calm_clone_props l : forall cm, calm (clone_props rec cm l) (fun h => cm_lv h cm /\ props_lv h l) (pair_ok (fun h x => props_lv h x)).
Proof.
  induction l as [|[k p] l IH]; intros cm; cbn [clone_props].
  - apply calm_ret. intros h [A1 _]. split; [intros x y []|exact A1].
  - eapply calm_bind'; [eapply calm_pre; [apply Hrec|]|firmly|].
    + intros h [A1 B]. split; [exact A1|]. apply (B k p). now left.
    + intros [a' cm']. eapply calm_bind'; [eapply calm_pre; [apply IH|]| |].
      * intros h [[A1 B] [C D]]. split; [exact D|]. intros x y J. apply (B x y). now right.
      * unfold pair_ok. firmly.
      * intros [l' cm'']. apply calm_ret. intros h [[_ [A1 _]] [B C]]. split; [|exact C]. intros x y [E|J]; [injection E as <- <-; exact A1|exact (B x y J)].
Qed.
Lemma calm_clone_opt cm o : calm (clone_opt rec cm o) (fun h => cm_lv h cm /\ olv h o TBase) (pair_ok (fun h x => olv h x TBase)).
Proof.
  destruct o as [a|]; cbn [clone_opt].
  - eapply calm_bind'; [eapply calm_pre; [apply Hrec|]|firmly|].
    + intros h [A1 B]. split; [exact A1|]. now apply B.
    + intros [a' cm']. apply calm_ret. intros h [_ [A1 B]]. split; [|exact B]. intros x [= <-]. exact A1.
  - apply calm_ret. intros h [A1 _]. split; [intros x; discriminate|exact A1].
Qed.
Lemma calm_clone_optprops cm o : calm (clone_optprops rec cm o) (fun h => cm_lv h cm /\ olv h o TProps) (pair_ok (fun h x => olv h x TProps)).
Proof.
  destruct o as [a|]; cbn [clone_optprops].
  - eapply calm_bind'; [apply calm_props; intros h [_ A1]; now apply A1|firmly|]. intros l.
    eapply calm_bind'; [eapply calm_pre; [apply calm_clone_props|]|firmly|]. { intros h [[A1 _] B]. auto. }
    intros [l' cm']. eapply calm_bind'; [apply calm_alloc| |].
    + intros h [_ [A1 _]]. exact A1.
    + unfold pair_ok. firmly.
    + intros m'. apply calm_ret. intros h [[_ [_ A1]] B]. split; [|exact A1]. intros x [= <-]. exact B.
  - apply calm_ret. intros h [A1 _]. split; [intros x; discriminate|exact A1].
Qed.
Lemma calm_clone_shape cm sh : calm (clone_shape rec cm sh) (fun h => cm_lv h cm /\ sh_fine h sh) (pair_ok (fun h x => sh_fine h x)).
Proof.
  destruct sh; cbn [clone_shape]; try (apply calm_ret; intros h [A1 B]; split; assumption).
  - eapply calm_bind'; [eapply calm_pre; [apply calm_clone_opt|]|firmly|]. { intros h [A1 [_ B]]. split; assumption. }
    intros [o cm']. apply calm_ret. intros h [[_ [A1 _]] [B C]]. split; [|exact C]. split; [exact A1|]. exact B.
  - eapply calm_bind'; [eapply calm_pre; [apply calm_clone_optprops|]|firmly|]. { intros h [A1 [_ [B _]]]. split; assumption. }
    intros [o cm']. eapply calm_bind'; [eapply calm_pre; [apply calm_clone_optprops|]| |].
    + intros h [[_ [_ [_ B]]] [_ C]]. split; [exact C|exact B].
    + unfold pair_ok. firmly.
    + intros [o' cm'']. apply calm_ret. intros h [[[_ [A1 _]] [B _]] [C D]]. split; [|exact D]. split; [exact A1|]. split; assumption.
  - eapply calm_bind'; [apply calm_slice; intros h [_ [_ [_ A1]]]; exact A1|firmly|]. intros l.
    eapply calm_bind'; [eapply calm_pre; [apply calm_clone_list|]|firmly|]. { intros h [[A1 _] B]. auto. }
    intros [l' cm']. eapply calm_bind'; [apply calm_alloc| |].
    + intros h [_ [A1 _]]. exact A1.
    + unfold pair_ok. firmly.
    + intros sl'. apply calm_ret. intros h [[[[_ [A1 [U _]]] _] [_ B]] C]. split; [|exact B]. split; [exact A1|]. split; [exact U|]. eexists. exact C.
Qed.
End Clone.

Lemma calm_clone n : forall cm a, calm (clone n cm a) (fun h => cm_lv h cm /\ lv h a TBase) (pair_ok (fun h x => lv h x TBase)).
Proof.
  induction n as [|n IH]; intros cm a; [apply calm_diverge|]. cbn [clone].
  eapply calm_bind'; [apply calm_base; intros h [_ A1]; exact A1|firmly|]. intros b. cbv beta.
  destruct (cm_get (b_id b) cm) as [a'|] eqn:E.
  { apply calm_ret. intros h [[A1 _] _]. split; [|exact A1]. destruct (cm_get_in _ _ _ E) as (k & J). exact (A1 k a' J). }
  eapply calm_bind'; [apply calm_alloc; intros h [_ A1]; exact A1|firmly|]. intros c. cbn [sort_of].
  eapply calm_bind'; [apply calm_facets; intros h [[_ A1] _]; apply A1|firmly|]. intros fm.
  eapply calm_bind'; [apply calm_props; intros h [[[_ A1] _] _]; apply A1|firmly|]. intros fd.
  eapply calm_bind'; [eapply calm_pre; [apply (calm_clone_props _ IH)|]|firmly|].
  { intros h [[[[[A1 _] _] B] _] C]. split; [|exact C]. intros k x [J|J]; [injection J as <- <-; exact B|exact (A1 k x J)]. }
  intros [fd' cm1]. unfold pair_ok. cbn [fst snd].
  eapply calm_bind'; [eapply calm_pre; [apply (calm_clone_opt _ IH)|]|firmly|].
  { intros h [[[[[_ A1] _] _] _] [_ C]]. split; [exact C|apply A1]. }
  intros [al cm2]. unfold pair_ok. cbn [fst snd].
  eapply calm_bind'; [apply calm_slice; intros h [[[[[[_ A1] _] _] _] _] _]; apply A1|firmly|]. intros inh.
  eapply calm_bind'; [eapply calm_pre; [apply (calm_clone_list _ IH)|]|firmly|].
  { intros h [[_ [_ A1]] C]. split; [exact A1|exact C]. }
  intros [inh' cm3]. unfold pair_ok. cbn [fst snd].
  eapply calm_bind' with (Q := pair_ok (fun h x => olv h x TDT)).
  { destruct (b_link b) as [l|] eqn:El.
    - eapply calm_bind'; [apply calm_dt; intros h A1; decompose [and] A1; eapply f_link; eassumption|firmly|]. intros d.
      destruct d as [ds|].
      + eapply calm_bind'; [eapply calm_pre; [apply IH|]| |].
        * intros h [A1 (y & [= <-] & B)]. split; [apply A1|exact B].
        * apply firm_and; [firmly|]. intros h h' G (y & A1 & B). exists y. auto.
        * intros [x cm4]. eapply calm_bind'; [apply calm_alloc| |].
          -- intros h [_ [A1 _]]. exists x. split; [reflexivity|exact A1].
          -- unfold pair_ok. apply firm_and; [apply firm_and; [firmly|]|firmly]. intros h h' G (y & A1 & B). exists y. auto.
          -- intros l'. apply calm_ret. intros h [[_ [_ A1]] B]. split; [|exact A1]. intros z [= <-]. exact B.
      + intros s F [_ (y & A1 & _)]. discriminate A1.
    - apply calm_ret. intros h [_ [_ A1]]. split; [intros x; discriminate|exact A1]. }
  { firmly. }
  intros [lk cm4]. unfold pair_ok. cbn [fst snd].
  destruct (b_shape b) as [sh|] eqn:Es.
  2:{ intros s F A1. decompose [and] A1. match goal with H : b_fine _ b |- _ => destruct (f_shape _ _ H) as (x & Ex & _) end. congruence. }
  eapply calm_bind'; [eapply calm_pre; [apply (calm_clone_shape _ IH)|]|firmly|].
  { intros h A1. decompose [and] A1. match goal with H : b_fine _ b |- _ => destruct (f_shape _ _ H) as (x & Ex & Fx) end. rewrite Es in Ex. injection Ex as <-. split; [apply A1|exact Fx]. }
  intros [sh' cm5]. unfold pair_ok. cbn [fst snd].
  eapply calm_bind'; [apply calm_alloc; intros h _; exact I|firmly|]. intros fm'. cbn [sort_of].
  eapply calm_bind'; [apply calm_alloc; intros h A1; decompose [and] A1; eassumption|firmly|]. intros fdm'. cbn [sort_of].
  eapply calm_bind'; [apply calm_alloc; intros h A1; decompose [and] A1; simpl; eassumption|firmly|]. intros ih'. cbn [sort_of].
  eapply calm_bind'; [apply calm_write|firmly|].
  { intros h A1. decompose [and] A1. split; [assumption|]. split; cbn [b_facets b_fdefs b_inherits b_link b_alias b_shape]; try assumption; try (eexists; eassumption).
    exists sh'. split; [reflexivity|assumption]. }
  intros _u. apply calm_ret. intros h A1. decompose [and] A1. split; cbn [fst snd]; assumption.
Qed.

Lemma calm_clone_detached n a (Pre : list cell -> Prop) : firm Pre -> (forall h, Pre h -> lv h a TBase) -> calm (clone_detached n a) Pre (fun x h => lv h x TBase).
Proof.
  intros Fm L. unfold clone_detached. eapply calm_bind'; [eapply calm_pre; [apply calm_clone|]|exact Fm|].
  - intros h P. split; [intros k x []|exact (L h P)].
  - intros [x cm]. apply calm_ret. intros h [_ [A1 _]]. exact A1.
Qed.

(** ** Alias *)
Lemma soft_fine h b b' : b_facets b' = b_facets b -> b_fdefs b' = b_fdefs b -> b_inherits b' = b_inherits b -> b_link b' = b_link b ->
  b_alias b' = b_alias b -> b_shape b' = b_shape b -> b_fine h b -> b_fine h b'.
Proof. intros E1 E2 E3 E4 E5 E6 [A B C D E F]. split; rewrite ?E1, ?E2, ?E3, ?E4, ?E5, ?E6; assumption. Qed.
Lemma shape_fine h b sh : sh_fine h sh -> b_fine h b -> b_fine h (set_shape (Some sh) b).
Proof. intros S [A B C D E F]. split; try assumption. exists sh. split; [reflexivity|exact S]. Qed.
Lemma alias_fine h t s sh : sh_fine h t -> sh_fine h s -> alias_shape t s = Ok sh -> sh_fine h sh.
Proof. intros T S. destruct t, s; cbn [alias_shape]; intros [= <-]; assumption. Qed.
Lemma alias_quiet t s : alias_shape t s <> Panic.
Proof. destruct t, s; discriminate. Qed.

Lemma calm_alias_to t s (Pre : list cell -> Prop) : firm Pre -> (forall h, Pre h -> lv h t TBase /\ lv h s TBase) -> calm (alias_to t s) Pre (fun x h => lv h x TBase).
Proof.
  intros Fm L. unfold alias_to. eapply calm_bind'; [apply calm_base; intros h P; apply (L h P)|exact Fm|]. intros b.
  eapply calm_bind'; [apply calm_base; intros h [P _]; apply (L h P)|firmly|]. intros sb.
  destruct (b_shape b) as [tsh|] eqn:Et.
  2:{ intros s0 F [[_ A1] _]. destruct (f_shape _ _ A1) as (x & Ex & _). congruence. }
  destruct (b_shape sb) as [ssh|] eqn:Es.
  2:{ intros s0 F [_ A1]. destruct (f_shape _ _ A1) as (x & Ex & _). congruence. }
  destruct (alias_shape tsh ssh) as [sh| | |] eqn:Ea; try apply calm_fail.
  eapply calm_bind'; [apply calm_write|firmly|].
  - intros h [[P A1] B]. split; [apply (L h P)|]. destruct A1 as [a1 a2 a3 a4 a5 (x & Ex & Fx)], B as [c1 c2 c3 c4 c5 (y & Ey & Fy)].
    split; cbn [b_facets b_fdefs b_inherits b_link b_alias b_shape]; try assumption.
    exists sh. split; [reflexivity|]. rewrite Et in Ex. injection Ex as <-. rewrite Es in Ey. injection Ey as <-. exact (alias_fine _ _ _ _ Fx Fy Ea).
  - intros _u. apply calm_ret. intros h [[[P _] _] _]. apply (L h P).
Qed.

(** ** Inherit *)
Hypothesis EP0 : EP None.
Hypothesis HE : forall t s, EP t -> EP s -> enum_inherit t s <> Panic /\ forall e, enum_inherit t s = Ok e -> EP e.

Lemma min_quiet {X} lt (t s : option X) : min_inherit lt t s <> Panic.
Proof. destruct t, s; cbn; try destruct (lt _ _); discriminate. Qed.
Lemma max_quiet {X} lt (t s : option X) : max_inherit lt t s <> Panic.
Proof. destruct t, s; cbn; try destruct (lt _ _); discriminate. Qed.
Lemma uniq_quiet t s : uniq_inherit t s <> Panic.
Proof. destruct t as [[|]|], s as [[|]|]; discriminate. Qed.

Definition simple (sh : shape) : Prop := match sh with SArray _ | SObject _ | SUnion _ _ | SRec _ => False | _ => True end.
Lemma scalar_quiet t s r : EP (Spec_Calm.enum_of t) -> EP (Spec_Calm.enum_of s) -> inherit_scalar t s = Some r ->
  r <> Panic /\ forall sh, r = Ok sh -> EP (Spec_Calm.enum_of sh) /\ simple sh.
Proof.
  intros T S. destruct t, s; cbn [inherit_scalar]; intros [= <-];
    try (split; [discriminate|intros sh [= <-]; split; [assumption|exact I]]).
  - unfold int_inherit. destruct (min_inherit _ _ _) eqn:E1; [|split; discriminate|exfalso; eapply min_quiet; eassumption|split; discriminate].
    cbn [rbind]. destruct (max_inherit _ _ _) eqn:E2; [|split; discriminate|exfalso; eapply max_quiet; eassumption|split; discriminate].
    cbn [rbind]. destruct (HE _ _ T S) as [N K]. cbn [Spec_Calm.enum_of] in N, K. destruct (enum_inherit _ _) eqn:E3; [|split; discriminate|congruence|split; discriminate].
    cbn [rbind]. destruct (if_format f) as [x|], (if_format f0) as [y|]; cbn [rbind]; try (split; [discriminate|intros sh [= <-]; split; [exact (K _ eq_refl)|exact I]]).
    destruct (_ =? _)%Z; cbn [rbind]; [|split; discriminate]. split; [discriminate|]. intros sh [= <-]. split; [exact (K _ eq_refl)|exact I].
  - unfold num_inherit. destruct (min_inherit _ _ _) eqn:E1; [|split; discriminate|exfalso; eapply min_quiet; eassumption|split; discriminate].
    cbn [rbind]. destruct (max_inherit _ _ _) eqn:E2; [|split; discriminate|exfalso; eapply max_quiet; eassumption|split; discriminate].
    cbn [rbind]. destruct (HE _ _ T S) as [N K]. cbn [Spec_Calm.enum_of] in N, K. destruct (enum_inherit _ _) eqn:E3; [|split; discriminate|congruence|split; discriminate].
    cbn [rbind]. destruct (nf_format f) as [x|], (nf_format f0) as [y|]; cbn [rbind]; try (split; [discriminate|intros sh [= <-]; split; [exact (K _ eq_refl)|exact I]]).
    destruct (String.eqb _ _); cbn [rbind]; [|split; discriminate]. split; [discriminate|]. intros sh [= <-]. split; [exact (K _ eq_refl)|exact I].
  - unfold str_inherit. destruct (min_inherit _ _ _) eqn:E1; [|split; discriminate|exfalso; eapply min_quiet; eassumption|split; discriminate].
    cbn [rbind]. destruct (max_inherit _ _ _) eqn:E2; [|split; discriminate|exfalso; eapply max_quiet; eassumption|split; discriminate].
    cbn [rbind]. destruct (HE _ _ T S) as [N K]. cbn [Spec_Calm.enum_of] in N, K. destruct (enum_inherit _ _) eqn:E3; [|split; discriminate|congruence|split; discriminate].
    cbn [rbind]. split; [discriminate|]. intros sh [= <-]. split; [exact (K _ eq_refl)|exact I].
  - unfold file_inherit. destruct (min_inherit _ _ _) eqn:E1; [|split; discriminate|exfalso; eapply min_quiet; eassumption|split; discriminate].
    cbn [rbind]. destruct (max_inherit _ _ _) eqn:E2; [|split; discriminate|exfalso; eapply max_quiet; eassumption|split; discriminate].
    cbn [rbind]. destruct (HE _ _ T S) as [N K]. cbn [Spec_Calm.enum_of] in N, K. destruct (enum_inherit _ _) eqn:E3; [|split; discriminate|congruence|split; discriminate].
    cbn [rbind]. split; [discriminate|]. intros sh [= <-]. split; [exact (K _ eq_refl)|exact I].
  - unfold bool_inherit. destruct (HE _ _ T S) as [N K]. cbn [Spec_Calm.enum_of] in N, K. destruct (enum_inherit _ _) eqn:E3; [|split; discriminate|congruence|split; discriminate].
    cbn [rbind]. split; [discriminate|]. intros sh [= <-]. split; [exact (K _ eq_refl)|exact I].
  - unfold datetime_inherit. destruct format as [x|], format0 as [y|]; cbn [rbind]; try (split; [discriminate|intros sh [= <-]; split; [assumption|exact I]]).
    destruct (String.eqb _ _); cbn [rbind]; [|split; discriminate]. split; [discriminate|]. intros sh [= <-]. split; [assumption|exact I].
  - destruct (_ && _); [split; discriminate|]. split; [discriminate|]. intros sh [= <-]. split; [assumption|exact I].
Qed.
Lemma simple_fine h sh : EP (Spec_Calm.enum_of sh) -> simple sh -> sh_fine h sh.
Proof. intros E S. split; [exact E|]. destruct sh; try exact I; destruct S. Qed.

Lemma calm_upd_arr a f (Pre : list cell -> Prop) : firm Pre -> (forall h, Pre h -> lv h a TBase) ->
  (forall h x, Pre h -> olv h (a_items x) TBase -> olv h (a_items (f x)) TBase) -> calm (upd_arr a f) Pre any_.
Proof.
  intros Fm L H. unfold upd_arr. eapply calm_bind'; [apply calm_base; exact L|exact Fm|]. intros b.
  destruct (b_shape b) as [[]|] eqn:E; try (apply calm_ret; constructor).
  apply calm_write. intros h [P B]. split; [exact (L h P)|]. apply shape_fine; [|exact B]. destruct (f_shape _ _ B) as (x & Ex & Fx). rewrite E in Ex. injection Ex as <-.
  destruct Fx as [A1 A2]. split; [exact A1|]. exact (H _ _ P A2).
Qed.
Definition o_fine h (f : obj_facets) : Prop := olv h (o_props f) TProps /\ olv h (o_pprops f) TProps.
Lemma firm_o f : firm (fun h => o_fine h f). Proof. unfold o_fine. firmly. Qed.
Lemma calm_upd_obj a f (Pre : list cell -> Prop) : firm Pre -> (forall h, Pre h -> lv h a TBase) ->
  (forall h x, Pre h -> o_fine h x -> o_fine h (f x)) -> calm (upd_obj a f) Pre any_.
Proof.
  intros Fm L H. unfold upd_obj. eapply calm_bind'; [apply calm_base; exact L|exact Fm|]. intros b.
  destruct (b_shape b) as [[]|] eqn:E; try (apply calm_ret; constructor).
  apply calm_write. intros h [P B]. split; [exact (L h P)|]. apply shape_fine; [|exact B]. destruct (f_shape _ _ B) as (x & Ex & Fx). rewrite E in Ex. injection Ex as <-.
  destruct Fx as [A1 A2]. split; [exact A1|]. exact (H _ _ P A2).
Qed.
Lemma calm_cur_arr a old (Pre : list cell -> Prop) : firm Pre -> (forall h, Pre h -> lv h a TBase /\ olv h (a_items old) TBase) -> calm (cur_arr a old) Pre (fun x h => olv h (a_items x) TBase).
Proof.
  intros Fm L. unfold cur_arr. eapply calm_bind'; [apply calm_base; intros h P; exact (proj1 (L h P))|exact Fm|]. intros b. apply calm_ret. intros h [P B].
  destruct (f_shape _ _ B) as (x & Ex & Fx). rewrite Ex. destruct x; try exact (proj2 (L h P)). apply Fx.
Qed.
Lemma calm_cur_obj a old (Pre : list cell -> Prop) : firm Pre -> (forall h, Pre h -> lv h a TBase /\ o_fine h old) -> calm (cur_obj a old) Pre (fun x h => o_fine h x).
Proof.
  intros Fm L. unfold cur_obj. eapply calm_bind'; [apply calm_base; intros h P; exact (proj1 (L h P))|exact Fm|]. intros b. apply calm_ret. intros h [P B].
  destruct (f_shape _ _ B) as (x & Ex & Fx). rewrite Ex. destruct x; try exact (proj2 (L h P)). apply Fx.
Qed.

Section Inherit.
Variable n : nat.
Variable rec : addr -> addr -> M addr.
Hypothesis Hrec : forall a b, calm (rec a b) (fun h => lv h a TBase /\ lv h b TBase) (fun x h => lv h x TBase).

Lemma calm_inherit_array t src tf sf : calm (inherit_array rec t src tf sf)
  (fun h => (lv h t TBase /\ lv h src TBase) /\ olv h (a_items tf) TBase /\ olv h (a_items sf) TBase) any_.
Proof.
  unfold inherit_array. eapply calm_bind' with (Q := any_); [|firmly|intros _u].
  - destruct (a_items tf) as [ti|], (a_items sf) as [si|].
    + eapply calm_bind'; [eapply calm_pre; [apply Hrec|]|firmly|intros x; apply calm_ret; constructor]. intros h [_ [A1 B]]. split; [now apply A1|now apply B].
    + apply calm_ret. constructor.
    + apply calm_upd_arr; [firmly|here|]. intros h x [_ [_ A1]] _. exact A1.
    + apply calm_upd_arr; [firmly|here|]. intros h x _ _. intros y; discriminate.
  - eapply calm_bind'; [apply (calm_cur_arr t tf); [firmly|intros h [[[A1 _] [B _]] _]; split; assumption]|firmly|intros tf'].
    eapply calm_bind'; [apply (calm_cur_arr src sf); [firmly|intros h [[[[_ A1] [_ B]] _] _]; split; assumption]|firmly|intros sf'].
    eapply calm_bind'; [apply calm_lift with (Post := any_); [apply min_quiet|constructor]|firmly|intros mn].
    eapply calm_bind'; [apply calm_lift with (Post := any_); [apply max_quiet|constructor]|firmly|intros mx].
    eapply calm_bind'; [apply calm_lift with (Post := any_); [apply uniq_quiet|constructor]|firmly|intros un].
    apply calm_upd_arr; [firmly|here|]. intros h x _ A1. exact A1.
Qed.
Lemma calm_inherit_map tm sm : calm (inherit_map n rec tm sm) (fun h => lv h tm TProps /\ lv h sm TProps) any_.
Proof.
  unfold inherit_map. apply calm_loop_props; [firmly|here|]. intros k sp.
  eapply calm_bind'; [apply calm_props; here|firmly|intros tl].
  destruct (oget k tl) as [tp|] eqn:E.
  - destruct (p_req sp && negb (p_req tp)); [apply calm_fail|].
    eapply calm_bind'; [eapply calm_pre; [apply Hrec|]|firmly|intros x; apply calm_ret; constructor].
    intros h [[_ A1] B]. split; [|exact A1]. assert (J : exists k', In (k', tp) tl).
    { clear -E. induction tl as [|[k0 v0] tl IH]; [discriminate|]. cbn [oget] in E. destruct (String.eqb k k0); [injection E as <-; exists k0; now left|].
      destruct (IH E) as (k' & J). exists k'. now right. }
    destruct J as (k' & J). exact (B k' tp J).
  - apply calm_props_set; [firmly|]. intros h [[[A1 _] B] _]. split; assumption.
Qed.
Lemma calm_inherit_props t tp sp : calm (inherit_props n rec t tp sp) (fun h => lv h t TBase /\ olv h tp TProps /\ olv h sp TProps) any_.
Proof.
  unfold inherit_props. destruct tp as [tm|]; [destruct sp as [sm|]|].
  - eapply calm_pre; [apply calm_inherit_map|]. intros h [_ [A1 B]]. split; [now apply A1|now apply B].
  - apply calm_ret. constructor.
  - apply calm_upd_obj; [firmly|here|]. intros h x [_ [_ A1]] [_ B]. split; assumption.
Qed.
Lemma calm_inherit_pprops t tp sp : calm (inherit_pprops n rec t tp sp) (fun h => lv h t TBase /\ olv h tp TProps /\ olv h sp TProps) any_.
Proof.
  unfold inherit_pprops. destruct tp as [tm|]; [destruct sp as [sm|]|].
  - eapply calm_pre; [apply calm_inherit_map|]. intros h [_ [A1 B]]. split; [now apply A1|now apply B].
  - apply calm_ret. constructor.
  - apply calm_upd_obj; [firmly|here|]. intros h x [_ [_ A1]] [B _]. split; assumption.
Qed.
Lemma calm_inherit_object t src tf sf : calm (inherit_object n rec t src tf sf)
  (fun h => (lv h t TBase /\ lv h src TBase) /\ o_fine h tf /\ o_fine h sf) any_.
Proof.
  assert (Fo : forall f, firm (fun h => o_fine h f)) by apply firm_o.
  unfold inherit_object.
  eapply calm_bind'; [apply calm_lift with (Post := any_); [apply min_quiet|constructor]|unfold o_fine; firmly|intros mn].
  eapply calm_bind'; [apply calm_lift with (Post := any_); [apply max_quiet|constructor]|unfold o_fine; firmly|intros mx].
  eapply calm_bind'; [apply calm_upd_obj; [unfold o_fine; firmly|here|intros h x _ A1; exact A1]|unfold o_fine; firmly|intros _u].
  eapply calm_bind'; [eapply calm_pre; [apply calm_inherit_props|]|unfold o_fine; firmly|intros _u2].
  { intros h [[[[[A1 _] [[B _] [C _]]] _] _] _]. split; [exact A1|]. split; assumption. }
  eapply calm_bind'; [apply (calm_cur_obj t tf); [unfold o_fine; firmly|intros h A1; decompose [and] A1; split; assumption]|unfold o_fine; firmly|intros tf'].
  eapply calm_bind'; [apply (calm_cur_obj src sf); [unfold o_fine; firmly|intros h A1; decompose [and] A1; split; assumption]|unfold o_fine; firmly|intros sf'].
  eapply calm_pre; [apply calm_inherit_pprops|]. intros h A1. split; [apply A1|]. destruct A1 as [[_ [_ B]] [_ C]]. split; assumption.
Qed.
Lemma calm_renumber {A} cs (k : Z -> M A) (Pre : list cell -> Prop) (Post : A -> list cell -> Prop) : firm Pre -> (forall h, Pre h -> lv h cs TBase) ->
  (forall i, calm (k i) Pre Post) -> calm (i <- gen_id ;; upd_base cs (set_id i) ;;; k i) Pre Post.
Proof.
  intros Fm L H. eapply calm_bind'; [apply calm_gen_id|exact Fm|intros i].
  eapply calm_bind'; [apply calm_upd_base; [firmly|intros h [P _]; exact (L h P)|]|firmly|intros _u; eapply calm_pre; [apply H|intros h [[P _] _]; exact P]].
  intros h b _ B. revert B. apply soft_fine; reflexivity.
Qed.
Definition opt_lv (o : option addr) (h : list cell) : Prop := olv h o TBase.
Lemma calm_union_inner sm ty tl : calm (union_inner n rec sm ty tl) (fun h => lv h sm TBase /\ all_lv h tl) (fun l h => all_lv h l).
Proof.
  induction tl as [|tm tl IH]; cbn [union_inner].
  - apply calm_ret. intros h _ x [].
  - eapply calm_bind'; [apply calm_base; intros h [_ A1]; apply A1; now left|firmly|intros tb].
    eapply calm_bind' with (Q := opt_lv); [|firmly|].
    + destruct (String.eqb ty (b_type tb)); [|apply calm_ret; intros h _ x; discriminate].
      eapply calm_bind'; [apply calm_clone_detached; [firmly|intros h [[_ A1] _]; apply A1; now left]|firmly|intros cs].
      apply calm_renumber; [firmly|here|]. intros _i. eapply calm_pre; [apply calm_try; apply Hrec|]. intros h [[[A1 _] _] B]. split; assumption.
    + intros r. eapply calm_bind'; [eapply calm_pre; [apply IH|]|unfold opt_lv; firmly|].
      * intros h [[[A1 B] _] _]. split; [exact A1|]. intros x J. apply B. now right.
      * intros r'. apply calm_ret. intros h [[_ A1] B]. destruct r as [ms|]; [|exact B]. intros x [<-|J]; [now apply A1|exact (B x J)].
Qed.
Lemma calm_union_outer tsl sl : calm (union_outer n rec tsl sl) (fun h => slv h tsl /\ all_lv h sl) (fun l h => all_lv h l).
Proof.
  induction sl as [|sm sl IH]; cbn [union_outer].
  - apply calm_ret. intros h _ x [].
  - eapply calm_bind'; [apply calm_base; intros h [_ A1]; apply A1; now left|firmly|intros sb].
    eapply calm_bind'; [apply calm_slice; here|firmly|intros tl].
    eapply calm_bind'; [eapply calm_pre; [apply calm_union_inner|]|firmly|intros f].
    { intros h [[[_ A1] _] B]. split; [apply A1; now left|exact B]. }
    destruct f as [|x f]; [apply calm_fail|].
    eapply calm_bind'; [eapply calm_pre; [apply IH|]|firmly|intros f'].
    { intros h [[[[A1 B] _] _] _]. split; [exact A1|]. intros y J. apply B. now right. }
    apply calm_ret. intros h [[_ A1] B] y J. apply in_app_or in J. destruct J as [J|J]; [exact (A1 y J)|exact (B y J)].
Qed.
Lemma calm_inherit_union t tsl e ssl : calm (inherit_union n rec t tsl e ssl) (fun h => (lv h t TBase /\ EP None /\ US) /\ slv h tsl /\ slv h ssl) any_.
Proof.
  unfold inherit_union. eapply calm_bind'; [apply calm_slice; here|firmly|intros tl].
  destruct tl as [|x tl].
  - apply calm_upd_base; [firmly|here|]. intros h b A1 B. apply shape_fine; [|exact B]. split; [apply A1|]. split; apply A1.
  - eapply calm_bind'; [apply calm_slice; here|firmly|intros sl].
    eapply calm_bind'; [eapply calm_pre; [apply calm_union_outer|]|firmly|intros f].
    { intros h [[[_ [A1 _]] _] B]. split; assumption. }
    eapply calm_bind'; [apply calm_alloc; here|firmly|intros a].
    apply calm_upd_base; [firmly|here|]. intros h b A1 B. apply shape_fine; [|exact B]. split; [apply A1|]. split; [apply A1|]. eexists. apply A1.
Qed.
Lemma calm_inherit_shape t src tsh ssh : calm (inherit_shape n rec t src tsh ssh)
  (fun h => (lv h t TBase /\ lv h src TBase) /\ sh_fine h tsh /\ sh_fine h ssh) any_.
Proof.
  assert (Sc : (forall r, inherit_scalar tsh ssh = Some r -> True) -> calm (match inherit_scalar tsh ssh with
      | Some r => sh <- lift r ;; upd_base t (set_shape (Some sh))
      | None => fail end) (fun h => (lv h t TBase /\ lv h src TBase) /\ sh_fine h tsh /\ sh_fine h ssh) any_).
  { intros _. destruct (inherit_scalar tsh ssh) as [r|] eqn:E; [|apply calm_fail].
    apply calm_pure with (P := EP (Spec_Calm.enum_of tsh) /\ EP (Spec_Calm.enum_of ssh)); [intros h [_ [[A1 _] [B _]]]; split; assumption|].
    intros [Et Es]. destruct (scalar_quiet _ _ _ Et Es E) as [N K].
    eapply calm_bind'; [apply calm_lift with (Post := fun x _ => EP (Spec_Calm.enum_of x) /\ simple x); [exact N|intros x h Ex _; exact (K x Ex)]|firmly|intros sh].
    apply calm_upd_base; [firmly|here|]. intros h b [_ [A1 A2]] B. apply shape_fine; [|exact B]. now apply simple_fine. }
  unfold inherit_shape. destruct tsh, ssh; try (apply Sc; auto; fail).
  - eapply calm_pre; [apply calm_inherit_array|]. intros h [A1 [[_ B] [_ C]]]. split; [exact A1|]. split; assumption.
  - eapply calm_pre; [apply calm_inherit_object|]. intros h [A1 [[_ B] [_ C]]]. split; [exact A1|]. split; assumption.
  - eapply calm_bind'; [apply calm_base; intros h [_ [_ [_ [_ A1]]]]; exact A1|firmly|intros hb].
    apply calm_pure with (P := exists x, b_shape hb = Some x); [intros h [_ B]; destruct (f_shape _ _ B) as (x & Ex & _); eauto|].
    intros (x & Ex). rewrite Ex. destruct x; try apply calm_fail.
    eapply calm_pre; [apply calm_inherit_object|]. intros h [[[A1 _] [[_ B] [_ [_ C]]]] D]. split; [split; assumption|]. split; [exact B|].
    destruct (f_shape _ _ D) as (y & Ey & Fy). rewrite Ex in Ey. injection Ey as <-. apply Fy.
  - eapply calm_pre; [apply calm_inherit_union|]. intros h [[A1 _] [[E [U B]] [_ [_ C]]]]. split; [split; [exact A1|split; assumption]|]. split; assumption.
Qed.
Lemma calm_union_source s members : calm (union_source n rec s members) (fun h => lv h s TBase /\ all_lv h members) (fun o h => forall l, o = Some l -> all_lv h l).
Proof.
  induction members as [|m ms IH]; cbn [union_source].
  - apply calm_ret. intros h _ l [= <-] x [].
  - eapply calm_bind'; [apply calm_base; intros h [_ A1]; apply A1; now left|firmly|intros mb].
    assert (K : calm (sb <- rd get_base s ;;
          r <- (if String.eqb (b_type mb) (b_type sb) then
                  tc <- clone_detached n s ;;
                  i <- gen_id ;;
                  upd_base tc (set_id i) ;;;
                  try (rec tc m)
                else ret None) ;;
          r' <- union_source n rec s ms ;;
          ret (match r, r' with
               | Some x, Some l => Some (x :: l)
               | None, Some l => Some l
               | _, None => None
               end)) (fun h => (lv h s TBase /\ all_lv h (m :: ms)) /\ b_fine h mb) (fun o h => forall l, o = Some l -> all_lv h l)).
    { eapply calm_bind'; [apply calm_base; here|firmly|intros sb].
      eapply calm_bind' with (Q := opt_lv); [|firmly|].
      + destruct (String.eqb (b_type mb) (b_type sb)); [|apply calm_ret; intros h _ x; discriminate].
        eapply calm_bind'; [apply calm_clone_detached; [firmly|here]|firmly|intros tc].
        apply calm_renumber; [firmly|here|]. intros _i. eapply calm_pre; [apply calm_try; apply Hrec|]. intros h [[[[_ A1] _] _] B]. split; [exact B|]. apply A1. now left.
      + intros r. eapply calm_bind'; [eapply calm_pre; [apply IH|]|unfold opt_lv; firmly|].
        * intros h [[[[A1 B] _] _] _]. split; [exact A1|]. intros x J. apply B. now right.
        * intros r'. apply calm_ret. intros h [[_ A1] B] l El. destruct r as [ms'|], r' as [l'|]; try discriminate; injection El as <-.
          -- intros x [<-|J]; [now apply A1|exact (B _ eq_refl x J)].
          -- exact (B _ eq_refl). }
    destruct (b_shape mb) as [[]|]; try exact K. apply calm_ret. intros h _ l; discriminate.
Qed.
Lemma calm_inherit_union_source s ssl : calm (inherit_union_source n rec s ssl) (fun h => (lv h s TBase /\ EP None /\ US) /\ slv h ssl) (fun x h => lv h x TBase).
Proof.
  unfold inherit_union_source. eapply calm_bind'; [apply calm_slice; here|firmly|intros ms].
  eapply calm_bind'; [eapply calm_pre; [apply calm_union_source|]| |intros r].
  { intros h [[[A1 _] _] B]. split; assumption. }
  { firmly. }
  assert (Fq : forall r, firm (fun h => forall l, r = Some l -> all_lv h l)). { intros r0 h h' G A1 l E. exact (firm_all _ _ _ G (A1 l E)). }
  destruct r as [[|x [|y l]]|].
  - apply calm_fail.
  - apply calm_ret. intros h [_ A1]. apply (A1 _ eq_refl). now left.
  - eapply calm_bind'; [apply calm_alloc; intros h [_ A1]; exact (A1 _ eq_refl)|apply firm_and; [firmly|apply Fq]|intros a].
    eapply calm_bind'; [apply calm_upd_base; [apply firm_and; [apply firm_and; [firmly|apply Fq]|firmly]|here|]|apply firm_and; [apply firm_and; [firmly|apply Fq]|firmly]|intros _u; apply calm_ret; here].
    intros h b [[[[A1 _] _] _] A2] B. apply shape_fine; [split; [apply A1|]; split; [apply A1|]; eexists; exact A2|]. revert B. apply soft_fine; reflexivity.
  - apply calm_ret. here.
Qed.
Lemma calm_union_target k s tsl : forall i g, calm (union_target rec k s tsl i g) (fun h => lv h s TBase /\ slv h tsl) any_.
Proof.
  induction k as [|k IH]; intros i g; [apply calm_diverge|]. cbn [union_target].
  eapply calm_bind'; [apply calm_slice; here|firmly|intros l]. destruct (nth_error l i) as [item|] eqn:E; [|apply calm_ret; constructor].
  eapply calm_bind'; [eapply calm_sub with (Post := any_); [apply calm_try; apply Hrec| |constructor]|firmly|intros r].
  - intros h [[A1 _] B]. split; [|exact A1]. exact (B _ (nth_error_In _ _ E)).
  - eapply calm_pre; [apply IH|]. intros h [[A1 _] _]. exact A1.
Qed.
Lemma calm_inherit_body s src : calm (inherit_body n rec s src) (fun h => lv h s TBase /\ lv h src TBase) (fun x h => lv h x TBase).
Proof.
  unfold inherit_body. eapply calm_bind'; [apply calm_base; here|firmly|intros sb].
  destruct (b_visited sb); [apply calm_ret; here|].
  eapply calm_bind'; [apply calm_upd_base; [firmly|here|intros h b _; apply soft_fine; reflexivity]|firmly|intros _u1].
  eapply calm_bind'; [apply calm_base; here|firmly|intros tb].
  eapply calm_bind' with (Q := any_); [|firmly|intros _u2].
  { destruct (b_desc tb); [apply calm_ret; constructor|]. apply calm_upd_base; [firmly|here|intros h b _; apply soft_fine; reflexivity]. }
  eapply calm_bind'; [apply calm_facets; intros h A1; decompose [and] A1; eapply f_facets; eassumption|firmly|intros tfm].
  eapply calm_bind'; [apply calm_facets; intros h A1; decompose [and] A1; match goal with H : b_fine _ sb |- _ => exact (f_facets _ _ H) end|firmly|intros sfm].
  eapply calm_bind'; [apply calm_write; intros h A1; split; [decompose [and] A1; match goal with H : b_fine _ tb |- _ => exact (f_facets _ _ H) end|exact I]|firmly|intros _u3].
  apply calm_pure with (P := exists t x, b_shape tb = Some t /\ b_shape sb = Some x).
  { intros h A1. decompose [and] A1. match goal with H : b_fine _ tb, H' : b_fine _ sb |- _ => destruct (f_shape _ _ H) as (t & Et & _); destruct (f_shape _ _ H') as (x & Ex & _) end. eauto. }
  intros (tsh & ssh & Et & Es). rewrite Et, Es.
  apply calm_pre with (Pre' := fun h => (lv h s TBase /\ lv h src TBase) /\ sh_fine h tsh /\ sh_fine h ssh).
  2:{ intros h A1. decompose [and] A1. split; [split; assumption|].
      match goal with H : b_fine _ tb, H' : b_fine _ sb |- _ => destruct (f_shape _ _ H) as (t & Et' & Ft); destruct (f_shape _ _ H') as (x & Ex' & Fx) end.
      rewrite Et in Et'. injection Et' as <-. rewrite Es in Ex'. injection Ex' as <-. split; assumption. }
  assert (Same : calm (inherit_shape n rec s src tsh ssh ;;; upd_base src (set_visited false) ;;; ret s)
    (fun h => (lv h s TBase /\ lv h src TBase) /\ sh_fine h tsh /\ sh_fine h ssh) (fun x h => lv h x TBase)).
  { eapply calm_bind'; [apply calm_inherit_shape|firmly|intros _u]. eapply calm_bind'; [apply calm_upd_base; [firmly|here|intros h b _; apply soft_fine; reflexivity]|firmly|intros _u'].
    apply calm_ret. here. }
  assert (Src : forall sa e, ssh = SUnion sa e -> calm (inherit_union_source n rec s sa) (fun h => (lv h s TBase /\ lv h src TBase) /\ sh_fine h tsh /\ sh_fine h ssh) (fun x h => lv h x TBase)).
  { intros sa e ->. eapply calm_pre; [apply calm_inherit_union_source|]. intros h [[A1 _] [_ [E0 [U B]]]]. split; [split; [exact A1|split; assumption]|exact B]. }
  assert (Tgt : forall ta e, tsh = SUnion ta e -> calm (good <- union_target rec n s ta 0 true ;; (if good then ret s else fail)) (fun h => (lv h s TBase /\ lv h src TBase) /\ sh_fine h tsh /\ sh_fine h ssh) (fun x h => lv h x TBase)).
  { intros ta e ->. eapply calm_bind'; [eapply calm_pre; [apply calm_union_target|]|firmly|].
    - intros h [[A1 _] [[_ [_ B]] _]]. split; assumption.
    - intros [|]; [|apply calm_fail]. apply calm_ret. here. }
  destruct tsh, ssh; try exact Same; try (eapply Src; reflexivity); try (eapply Tgt; reflexivity); apply calm_ret; here.
Qed.
End Inherit.
Lemma calm_inherit n : forall a b, calm (inherit n a b) (fun h => lv h a TBase /\ lv h b TBase) (fun x h => lv h x TBase).
Proof. induction n as [|n IH]; intros a b; [apply calm_diverge|]. cbn [inherit]. apply calm_inherit_body. exact IH. Qed.

(** ** Recursion marking *)
Lemma calm_length {A} (m : M A) a (Pre : list cell -> Prop) (Post : A -> list cell -> Prop) : (forall h, Pre h -> slv h a) ->
  (forall n, calm m (fun h => Pre h /\ lv h a (TSlice n)) Post) -> calm m Pre Post.
Proof. intros L H s F P. destruct (L _ P) as (n & X). exact (H n s F (conj P X)). Qed.
Lemma calm_loop_slice_n k n m body (Pre : list cell -> Prop) : firm Pre -> (forall h, Pre h -> lv h m (TSlice n)) ->
  (forall i a, i < n -> calm (body i a) (fun h => Pre h /\ lv h a TBase) any_) ->
  forall i, calm (loop_slice k m i body) Pre any_.
Proof.
  intros Fm L H. induction k as [|k IH]; intros i; [apply calm_diverge|]. cbn [loop_slice].
  eapply calm_bind'; [apply calm_slice_n; exact L|firmly|]. intros l. destruct (nth_error l i) as [a|] eqn:E; [|apply calm_ret; constructor].
  apply calm_pure with (P := List.length l = n); [intros h [_ [_ X]]; exact X|]. intros Ln. assert (i < n). { rewrite <- Ln. apply nth_error_Some. congruence. }
  eapply calm_bind'.
  - eapply calm_pre; [apply H; assumption|]. intros h [P [A1 _]]. split; [exact P|]. exact (A1 a (nth_error_In _ _ E)).
  - firmly.
  - intros x. eapply calm_pre; [apply IH|]. intros h [[P _] _]. exact P.
Qed.
Lemma fine_snoc h c : fine h -> c_fine h c -> fine (h ++ [c]) /\ grow h (h ++ [c]) /\ lv (h ++ [c]) (List.length h) (sort_of c).
Proof.
  intros F C. destruct (calm_alloc c (fun x => c_fine x c) (fun x H => H) (St h [] 0%Z) F C) as (_ & A1 & B & D). split; [exact A1|]. split; [exact B|]. exact (D _ eq_refl).
Qed.
Lemma upd_snoc {A} (l : list A) x y : upd (List.length l) x (l ++ [y]) = l ++ [x].
Proof. induction l as [|z l IH]; [reflexivity|]. cbn. now rewrite IH. Qed.
Lemma get_snoc h b : get_base (h ++ [CBase b]) (List.length h) = Some b.
Proof. apply get_base_nth. apply nth_error_snoc. Qed.

Hypothesis HRS : RS.
Lemma calm_make_recursive hd : calm (make_recursive hd) (fun h => lv h hd TBase) (fun x h => lv h x TBase).
Proof.
  intros s F L. destruct (lv_base _ _ L) as (hb & G). pose proof (proj2 F hd _ (proj1 L) (proj1 (get_base_nth _ _ _) G)) as B. cbn [c_fine] in B.
  set (h1 := heap s ++ [CFacets []]). set (h2 := h1 ++ [CProps []]). set (h3 := h2 ++ [CSlice []]).
  set (b1 := Base (st_nextid s + 1) (b_name hb) (b_loc hb) "recursive" None (b_desc hb) None None None None (b_domain hb)
    (List.length h2) None None (b_facets hb) (List.length h1) true false (Some (SRec hd))).
  assert (E : make_recursive hd s = (Ok (List.length h3), St (h3 ++ [CBase b1]) (st_shapes s ++ [List.length h3]) (st_nextid s + 1))).
  { unfold make_recursive, make_base, upd_base, bind, rd, gen_id, alloc, put_shape, Heap.write, ret. rewrite G. cbn [heap st_shapes st_nextid fst snd].
    fold h1. fold h2. fold h3. rewrite get_snoc. cbn [heap st_shapes st_nextid fst snd]. rewrite upd_snoc. reflexivity. }
  rewrite E. cbn [fst snd heap].
  destruct (fine_snoc (heap s) (CFacets []) F I) as (F1 & G1 & L1). fold h1 in F1, G1, L1.
  destruct (fine_snoc h1 (CProps []) F1) as (F2 & G2 & L2); [intros k p []|]. fold h2 in F2, G2, L2.
  destruct (fine_snoc h2 (CSlice []) F2) as (F3 & G3 & L3); [intros x []|]. fold h3 in F3, G3, L3.
  assert (C : c_fine h3 (CBase b1)).
  { unfold b1. split; cbn [b_facets b_fdefs b_inherits b_link b_alias b_shape].
    - apply G3, G2, G1. exact (f_facets _ _ B).
    - apply G3. exact L2.
    - exists 0. exact L3.
    - intros x; discriminate.
    - intros x; discriminate.
    - exists (SRec hd). split; [reflexivity|]. split; [cbn; exact EP0|]. split; [exact HRS|apply G3, G2, G1, L]. }
  destruct (fine_snoc h3 (CBase b1) F3 C) as (F4 & G4 & L4).
  split; [discriminate|]. split; [exact F4|]. split; [intros x k X; apply G4, G3, G2, G1, X|]. intros x [= <-]. exact L4.
Qed.

Section Mark.
Variable n : nat.
Variable rec : addr -> M (option addr).
Hypothesis Hrec : forall a, calm (rec a) (fun h => lv h a TBase) opt_lv.
Lemma firm_opt o : firm (opt_lv o). Proof. unfold opt_lv. firmly. Qed.
Lemma calm_mark_map m : calm (mark_map n rec m) (fun h => lv h m TProps) any_.
Proof.
  apply calm_loop_props; [firmly|intros h A1; exact A1|]. intros k p.
  eapply calm_bind'; [eapply calm_pre; [apply Hrec|here]|firmly|intros r]. destruct r as [x|]; [|apply calm_ret; constructor].
  apply calm_props_set; [apply firm_and; [firmly|apply firm_opt]|]. intros h [[A1 _] B]. split; [exact A1|]. now apply B.
Qed.
Lemma calm_mark_optmap o : calm (mark_optmap n rec o) (fun h => olv h o TProps) any_.
Proof. destruct o as [m|]; [|apply calm_ret; constructor]. eapply calm_pre; [apply calm_mark_map|]. intros h A1. now apply A1. Qed.
Lemma calm_mark_shape a : calm (mark_shape n rec a) (fun h => lv h a TBase) any_.
Proof.
  unfold mark_shape. eapply calm_bind'; [apply calm_base; intros h A1; exact A1|firmly|intros b].
  destruct (b_shape b) as [sh|] eqn:E; [|apply calm_ret; constructor].
  apply calm_pre with (Pre' := fun h => lv h a TBase /\ sh_fine h sh).
  2:{ intros h [A1 B]. split; [exact A1|]. destruct (f_shape _ _ B) as (x & Ex & Fx). rewrite E in Ex. injection Ex as <-. exact Fx. }
  destruct sh; try (apply calm_ret; constructor).
  - destruct (a_items f) as [i|] eqn:Ei; [|apply calm_ret; constructor].
    eapply calm_bind'; [eapply calm_pre; [apply Hrec|]|firmly|intros r]. { intros h [_ [_ A1]]. now apply A1. }
    destruct r as [x|]; [|apply calm_ret; constructor].
    apply calm_upd_arr; [apply firm_and; [firmly|apply firm_opt]|here|]. intros h y [_ A1] _. exact A1.
  - eapply calm_bind'; [eapply calm_pre; [apply calm_mark_optmap|]|firmly|intros _u]. { intros h [_ [_ [A1 _]]]. exact A1. }
    eapply calm_pre; [apply calm_mark_optmap|]. intros h [[_ [_ [_ A1]]] _]. exact A1.
  - apply calm_length with (a := anyof); [intros h [_ [_ [_ A1]]]; exact A1|]. intros N.
    apply calm_loop_slice_n with (n := N); [firmly|here|]. intros i item Li.
    eapply calm_bind'; [eapply calm_pre; [apply Hrec|here]|firmly|intros r]. destruct r as [x|]; [|apply calm_ret; constructor].
    eapply calm_slice_set; [|exact Li]. intros h [[[_ A1] _] B]. split; [exact A1|]. now apply B.
Qed.
End Mark.
Lemma calm_mark n : forall a, calm (mark n a) (fun h => lv h a TBase) opt_lv.
Proof.
  induction n as [|n IH]; intros a; [apply calm_diverge|]. cbn [mark].
  eapply calm_bind'; [apply calm_base; intros h A1; exact A1|firmly|intros b].
  destruct (negb (b_unwrapped b)); [apply calm_fail|]. destruct (b_visited b).
  - eapply calm_bind'; [eapply calm_pre; [apply calm_make_recursive|here]|firmly|intros r]. apply calm_ret. intros h [_ A1] x [= <-]. exact A1.
  - eapply calm_bind'; [apply calm_upd_base; [firmly|here|intros h b0 _; apply soft_fine; reflexivity]|firmly|intros _u1].
    eapply calm_bind'; [eapply calm_pre; [apply (calm_mark_shape n _ IH)|here]|firmly|intros _u2].
    eapply calm_bind'; [apply calm_upd_base; [firmly|here|intros h b0 _; apply soft_fine; reflexivity]|firmly|intros _u3].
    eapply calm_bind'; [apply calm_base; here|firmly|intros b'].
    eapply calm_bind'; [eapply calm_pre; [apply (calm_mark_map n _ IH)|]|firmly|intros _u4; apply calm_ret; intros h _ x; discriminate].
    intros h [_ B]. exact (f_fdefs _ _ B).
Qed.
Lemma calm_mark_all n l : calm (mark_all n l) (fun h => all_lv h l) any_.
Proof.
  induction l as [|a l IH]; cbn [mark_all]; [apply calm_ret; constructor|].
  eapply calm_bind'; [eapply calm_pre; [apply calm_mark|]|firmly|intros _u]. { intros h A1. apply A1. now left. }
  eapply calm_pre; [apply IH|]. intros h [A1 _] x J. apply A1. now right.
Qed.

(** ** Check and validation *)
Definition quiet {A} (r : res A) : Prop := r <> Panic.
Lemma quiet_bind {A B} (r : res A) (f : A -> res B) : quiet r -> (forall x, r = Ok x -> quiet (f x)) -> quiet (rbind r f).
Proof. intros H K. destruct r; cbn [rbind]; [apply K; reflexivity|discriminate|exfalso; apply H; reflexivity|discriminate]. Qed.
Lemma find_quiet v l : Spec_Calm.comparable v -> quiet (enum_find v l).
Proof.
  intros C. induction l as [|e l IH]; [discriminate|]. cbn [enum_find]. destruct (go_eq e v) as [[|]|] eqn:E; [discriminate|exact IH|].
  destruct e, v; try discriminate E; destruct C.
Qed.
Lemma enum_quiet e v : Spec_Calm.comparable v -> quiet (enum_validate e v).
Proof. intros C. destruct e as [l|]; [|discriminate]. apply quiet_bind; [now apply find_quiet|]. intros [|] _; discriminate. Qed.
Lemma int_quiet O f v : quiet (int_validate O f v).
Proof.
  assert (H : forall val : Z, quiet (if below Z.ltb val (if_min f) then Err else if above Z.ltb val (if_max f) then Err else
     enum_validate (if_enum f) (if is_int64 val then GInt val else if is_uint64 val then GUint val else GNil))).
  { intros z. destruct (below _ _ _); [discriminate|]. destruct (above _ _ _); [discriminate|]. apply enum_quiet. destruct (is_int64 z); [exact I|]. destruct (is_uint64 z); exact I. }
  destruct v; try discriminate; apply H.
Qed.
Lemma num_quiet f v : quiet (num_validate f v).
Proof.
  assert (H : forall val : float64, quiet (if below SFltb val (nf_min f) then Err else if above SFltb val (nf_max f) then Err else enum_validate (nf_enum f) (GFloat val))).
  { intros z. destruct (below _ _ _); [discriminate|]. destruct (above _ _ _); [discriminate|]. apply enum_quiet. exact I. }
  destruct v; try discriminate; apply H.
Qed.
Lemma str_quiet O f v : quiet (str_validate O f v).
Proof.
  destruct v; try discriminate. cbn [str_validate]. destruct (below _ _ _); [discriminate|]. destruct (above _ _ _); [discriminate|].
  destruct (match sf_pat f with Some p => _ | None => _ end); [discriminate|]. apply enum_quiet. exact I.
Qed.
Lemma file_quiet f v : quiet (file_validate f v).
Proof. destruct v; try discriminate. cbn [file_validate]. destruct (below _ _ _); [discriminate|]. destruct (above _ _ _); discriminate. Qed.
Lemma layout_quiet O l v : quiet (layout_validate O l v).
Proof. destruct v; try discriminate. cbn [layout_validate]. destruct (o_time _ _ _); discriminate. Qed.
Lemma datetime_quiet O f v : quiet (datetime_validate O f v).
Proof.
  destruct v; try discriminate. cbn [datetime_validate]. destruct f as [f|]; [|destruct (o_time _ _ _); discriminate].
  destruct (String.eqb f "rfc3339"); [destruct (o_time _ _ _); discriminate|]. destruct (String.eqb f "rfc2616"); [destruct (o_time _ _ _); discriminate|]. discriminate.
Qed.
Lemma items_quiet O rec items u l : (forall i x, items = Some i -> quiet (rec i x)) -> forall seen, quiet (items_loop O rec items u l seen).
Proof.
  intros H. induction l as [|x l IH]; intros seen; [discriminate|]. cbn [items_loop]. apply quiet_bind.
  - destruct items as [i|]; [now apply H|discriminate].
  - intros _ _. destruct u; [|apply IH]. destruct (item_hash O x); [apply IH|discriminate].
Qed.
Lemma array_quiet O rec f v : (forall i x, a_items f = Some i -> quiet (rec i x)) -> quiet (array_validate O rec f v).
Proof.
  intros H. destruct v; try discriminate. cbn [array_validate]. destruct (below _ _ _); [discriminate|]. destruct (above _ _ _); [discriminate|].
  apply quiet_bind; [now apply items_quiet|]. intros x _. destruct (_ && _); discriminate.
Qed.
Lemma pattern_quiet O (rec : addr -> gval -> res unit) k x l : (forall k p, In (k, p) l -> quiet (rec (p_base p) x)) -> forall b, quiet (pattern_loop O rec k x l b).
Proof.
  induction l as [|[k0 p] l IH]; intros H b; cbn [pattern_loop]; [destruct b; discriminate|].
  assert (Hl : forall k p, In (k, p) l -> quiet (rec (p_base p) x)). { intros k' p' J. apply (H k' p'). now right. }
  destruct (o_match O (p_name p) k); [|now apply IH]. pose proof (H k0 p (or_introl eq_refl)) as Q. destruct (rec (p_base p) x); [discriminate|now apply IH|exfalso; now apply Q|discriminate].
Qed.
Lemma oget_in {X} k (m : omap X) x : oget k m = Some x -> exists k', In (k', x) m.
Proof.
  induction m as [|[k0 v0] m IH]; [discriminate|]. cbn [oget]. destruct (String.eqb k k0); [intros [= <-]; exists k0; now left|].
  intros E. destruct (IH E) as (k' & J). exists k'. now right.
Qed.
Lemma object_quiet O (rec : addr -> gval -> res unit) f ps pps v : (forall k p x, In (k, p) ps \/ In (k, p) pps -> quiet (rec (p_base p) x)) -> quiet (object_validate O rec f ps pps v).
Proof.
  intros H. destruct v as [| | | | | | | |kvs|]; try discriminate. cbn [object_validate]. destruct (below _ _ _); [discriminate|]. destruct (above _ _ _); [discriminate|].
  destruct (missing_required ps kvs); [discriminate|]. generalize (match o_addl f with Some false => true | _ => false end). intros r.
  induction kvs as [|[k x] kvs IH]; [discriminate|]. cbn [props_loop]. apply quiet_bind; [|intros _ _; exact IH].
  destruct (oget k ps) as [p|] eqn:E.
  - destruct (oget_in _ _ _ E) as (k' & J). apply (H k' p). now left.
  - destruct r; [discriminate|]. apply pattern_quiet. intros k' p J. apply (H k' p). now right.
Qed.
Lemma union_quiet (rec : addr -> gval -> res unit) l v : (forall a, In a l -> quiet (rec a v)) -> quiet (union_validate rec l v).
Proof.
  induction l as [|a l IH]; intros H; [discriminate|]. cbn [union_validate]. pose proof (H a (or_introl eq_refl)) as Q.
  destruct (rec a v); [discriminate| |exfalso; now apply Q|discriminate]. apply IH. intros b J. apply H. now right.
Qed.
Lemma fine_base h a : fine h -> lv h a TBase -> exists b, get_base h a = Some b /\ b_fine h b.
Proof. intros [_ F] L. destruct (lv_base _ _ L) as (b & G). exists b. split; [exact G|]. apply get_base_nth in G. exact (F a _ (proj1 L) G). Qed.
Lemma fine_props h m : fine h -> lv h m TProps -> exists l, get_props h m = Some l /\ props_lv h l.
Proof. intros [_ F] L. destruct (lv_props _ _ L) as (b & G). exists b. split; [exact G|]. apply get_props_nth in G. exact (F m _ (proj1 L) G). Qed.
Lemma fine_slice h a : fine h -> slv h a -> exists l, get_slice h a = Some l /\ all_lv h l.
Proof. intros [_ F] L. destruct (lv_slice _ _ L) as (b & G). exists b. split; [exact G|]. apply get_slice_nth in G. destruct L as (n & Ra & _). exact (F a _ Ra G). Qed.
Lemma fine_opt h o : fine h -> olv h o TProps -> exists l, opt_props h o = Some l /\ props_lv h l.
Proof. intros F L. destruct o as [m|]; [|exists []; split; [reflexivity|intros k p []]]. apply (fine_props h m F). now apply L. Qed.
Lemma validate_quiet n O h : fine h -> forall a v, lv h a TBase -> quiet (validate n O h a v).
Proof.
  intros F. induction n as [|n IH]; intros a v L; [discriminate|]. cbn [validate]. destruct (fine_base _ _ F L) as (b & -> & B).
  destruct (f_shape _ _ B) as (sh & -> & [_ S]). destruct sh; try discriminate.
  - destruct v; discriminate.
  - apply int_quiet.
  - apply num_quiet.
  - apply str_quiet.
  - apply file_quiet.
  - destruct v; try discriminate. apply enum_quiet. exact I.
  - apply datetime_quiet.
  - apply layout_quiet.
  - apply layout_quiet.
  - apply layout_quiet.
  - apply array_quiet. intros i x E. apply IH. now apply S.
  - destruct S as [S1 S2]. destruct (fine_opt _ _ F S1) as (ps & -> & P1), (fine_opt _ _ F S2) as (pps & -> & P2).
    apply object_quiet. intros k p x [J|J]; apply IH; [exact (P1 k p J)|exact (P2 k p J)].
  - destruct S as [_ S]. destruct (fine_slice _ _ F S) as (l & -> & P). apply union_quiet. intros x J. apply IH. now apply P.
  - apply IH. exact (proj2 S).
Qed.
Lemma check_all_quiet (rec : addr -> res unit) l : (forall a, In a l -> quiet (rec a)) -> quiet (check_all rec l).
Proof.
  induction l as [|a l IH]; intros H; [discriminate|]. cbn [check_all]. apply quiet_bind; [apply H; now left|]. intros _ _. apply IH. intros b J. apply H. now right.
Qed.
Lemma bases_in l x : In x (bases l) -> exists k p, In (k, p) l /\ x = p_base p.
Proof. intros J. apply in_map_iff in J. destruct J as ([k p] & E & J). exists k, p. auto. Qed.
Lemma check_quiet n O h : fine h -> forall a, lv h a TBase -> quiet (check n O h a).
Proof.
  intros F. induction n as [|n IH]; intros a L; [discriminate|]. cbn [check]. destruct (fine_base _ _ F L) as (b & -> & B).
  destruct (f_shape _ _ B) as (sh & -> & [_ S]). destruct sh; try discriminate.
  - unfold int_check. destruct (crossed _ _ _); [discriminate|]. destruct (negb _); [discriminate|]. destruct (if_format f) as [x|]; [|discriminate]. destruct (int_format_code x); discriminate.
  - unfold num_check. destruct (crossed _ _ _); [discriminate|]. destruct (negb _); discriminate.
  - unfold str_check. destruct (crossed _ _ _); [discriminate|]. destruct (negb _); discriminate.
  - unfold file_check. destruct (crossed _ _ _); [discriminate|]. destruct (negb _); discriminate.
  - unfold bool_check. destruct (negb _); discriminate.
  - destruct (crossed _ _ _); [discriminate|]. destruct (a_items f) as [i|]; [|discriminate]. apply IH. now apply S.
  - destruct S as [S1 S2]. unfold object_check. destruct (crossed _ _ _); [discriminate|]. apply quiet_bind.
    + destruct (o_pprops f) as [m|]; [|discriminate]. destruct (fine_props _ _ F (S2 m eq_refl)) as (l & -> & P).
      destruct (o_addl f) as [[|]|]; try discriminate; apply check_all_quiet; intros x J; destruct (bases_in _ _ J) as (k & p & J' & ->); apply IH; exact (P k p J').
    + intros _ _. destruct (o_props f) as [m|]; [|destruct (o_disc f); discriminate]. destruct (fine_props _ _ F (S1 m eq_refl)) as (l & -> & P). apply quiet_bind.
      * apply check_all_quiet; intros x J; destruct (bases_in _ _ J) as (k & p & J' & ->); apply IH; exact (P k p J').
      * intros _ _. unfold check_discriminator. destruct (o_disc f) as [d|]; [|discriminate]. destruct (oget d l) as [p|] eqn:E; [|discriminate].
        destruct (oget_in _ _ _ E) as (k & J). destruct (fine_base _ _ F (P k p J)) as (pb & -> & PB). destruct (f_shape _ _ PB) as (psh & -> & _).
        destruct (negb _); [discriminate|]. destruct (o_discval f) as [v|]; [|discriminate]. apply validate_quiet; [exact F|exact (P k p J)].
  - destruct S as [_ S]. destruct (fine_slice _ _ F S) as (l & -> & P). apply check_all_quiet. intros x J. apply IH. now apply P.
Qed.
Lemma collect_ok own l : forall acc r h, props_lv h l -> props_lv h acc -> quiet (collect_defs own l acc) /\ (collect_defs own l acc = Ok r -> props_lv h r).
Proof.
  induction l as [|[k p] l IH]; intros acc r h Hl Ha; cbn [collect_defs].
  - split; [discriminate|]. intros [= <-]. exact Ha.
  - destruct (oget (p_name p) own); [split; discriminate|]. apply IH; [intros k' p' J; apply (Hl k' p'); now right|].
    intros k' p' J. destruct (in_oset _ _ _ _ _ J) as [[_ ->]|J']; [apply (Hl k p); now left|exact (Ha k' p' J')].
Qed.
Lemma facet_defs_ok n h own : fine h -> forall inh acc, slv h inh -> props_lv h acc ->
  quiet (facet_defs n h own inh acc) /\ forall r, facet_defs n h own inh acc = Ok r -> props_lv h r.
Proof.
  intros F. induction n as [|n IH]; intros inh acc S A1; [split; discriminate|]. cbn [facet_defs]. destruct (fine_slice _ _ F S) as (l & -> & P).
  destruct l as [|p l]; [split; [discriminate|intros r [= <-]; exact A1]|]. destruct (fine_base _ _ F (P p (or_introl eq_refl))) as (pb & -> & PB).
  destruct (fine_props _ _ F (f_fdefs _ _ PB)) as (d & -> & D). destruct (collect_defs own d acc) as [acc'| | |] eqn:E; cbn [rbind].
  - apply IH; [exact (f_inherits _ _ PB)|]. exact (proj2 (collect_ok own d acc acc' h D A1) E).
  - split; discriminate.
  - exfalso. exact (proj1 (collect_ok own d acc [] h D A1) E).
  - split; discriminate.
Qed.
Lemma facets_quiet (val : addr -> gval -> res unit) given defs h : props_lv h defs -> (forall a v, lv h a TBase -> quiet (val a v)) -> quiet (facets_loop val given defs).
Proof.
  intros D V. induction defs as [|[k d] defs IH]; [discriminate|]. cbn [facets_loop]. apply quiet_bind.
  - destruct (oget k given) as [v|]; [apply V; apply (D k d); now left|]. destruct (p_req d); discriminate.
  - intros _ _. apply IH. intros k' p' J. apply (D k' p'). now right.
Qed.
Lemma commons_quiet n O h : fine h -> forall a, lv h a TBase -> quiet (commons n O h a).
Proof.
  intros F. induction n as [|n IH]; intros a L; [discriminate|]. cbn [commons]. destruct (fine_base _ _ F L) as (b & -> & B).
  assert (V : forall a v, lv h a TBase -> quiet (validate n O h a v)) by (intros; now apply validate_quiet).
  destruct (fine_props _ _ F (f_fdefs _ _ B)) as (fd & Gd & D). destruct (lv_facets _ _ (f_facets _ _ B)) as (gv & Gf).
  apply quiet_bind; [|intros _ _; apply quiet_bind; [|intros _ _; apply quiet_bind; [|intros _ _]]].
  - unfold validate_facets. rewrite Gd, Gf. destruct (facet_defs_ok n h fd F _ [] (f_inherits _ _ B)) as [Q K]; [intros k p []|].
    apply quiet_bind; [exact Q|]. intros defs E. apply quiet_bind; [apply (facets_quiet _ _ _ h (K _ E) V)|]. intros _ _. destruct (forallb _ _); discriminate.
  - unfold validate_examples. apply quiet_bind; [destruct (b_example b); [now apply V|discriminate]|]. intros _ _. apply quiet_bind.
    + destruct (b_examples b) as [l|]; [|discriminate]. induction (map snd l) as [|v vs IHv]; [discriminate|]. cbn [validate_all]. apply quiet_bind; [now apply V|]. intros _ _. exact IHv.
    + intros _ _. destruct (b_default b); [now apply V|discriminate].
  - destruct (f_shape _ _ B) as (sh & -> & [_ S]). destruct sh; try discriminate.
    + destruct (a_items f) as [i|]; [|discriminate]. apply IH. now apply S.
    + destruct S as [S1 S2]. destruct (fine_opt _ _ F S1) as (ps & -> & P1), (fine_opt _ _ F S2) as (pps & -> & P2).
      apply quiet_bind; [|intros _ _]; apply check_all_quiet; intros x J; destruct (bases_in _ _ J) as (k & p & J' & ->); apply IH; [exact (P1 k p J')|exact (P2 k p J')].
    + destruct S as [_ S]. destruct (fine_slice _ _ F S) as (l & -> & P). apply check_all_quiet. intros x J. apply IH. now apply P.
  - rewrite Gd. apply check_all_quiet; intros x J; destruct (bases_in _ _ J) as (k & p & J' & ->); apply IH. exact (D k p J').
Qed.

(** ** Unwrap, without unions *)
Hypothesis HU : ~ US.

Section Unwrap.
Variable n : nat.
Variable rec : addr -> M addr.
Hypothesis Hrec : forall a, calm (rec a) (fun h => lv h a TBase) (fun x h => lv h x TBase).
Variable inh : addr -> addr -> M addr.
Hypothesis Hinh : forall a b, calm (inh a b) (fun h => lv h a TBase /\ lv h b TBase) (fun x h => lv h x TBase).

Lemma calm_unwrap_map m : calm (unwrap_map n rec m) (fun h => lv h m TProps) any_.
Proof.
  apply calm_loop_props; [firmly|intros h A1; exact A1|]. intros k p.
  eapply calm_bind'; [eapply calm_pre; [apply Hrec|here]|firmly|intros us].
  apply calm_props_set; [firmly|]. intros h [[A1 _] B]. split; assumption.
Qed.
Lemma calm_unwrap_optmap o : calm (unwrap_optmap n rec o) (fun h => olv h o TProps) any_.
Proof. destruct o as [m|]; [|apply calm_ret; constructor]. eapply calm_pre; [apply calm_unwrap_map|]. intros h A1. now apply A1. Qed.
Lemma calm_unwrap_target a : calm (unwrap_target n rec a) (fun h => lv h a TBase) any_.
Proof.
  unfold unwrap_target. eapply calm_bind'; [apply calm_base; intros h A1; exact A1|firmly|intros b].
  destruct (b_shape b) as [sh|] eqn:E; [|apply calm_ret; constructor].
  apply calm_pre with (Pre' := fun h => lv h a TBase /\ sh_fine h sh).
  2:{ intros h [A1 B]. split; [exact A1|]. destruct (f_shape _ _ B) as (x & Ex & Fx). rewrite E in Ex. injection Ex as <-. exact Fx. }
  destruct sh; try (apply calm_ret; constructor).
  - destruct (a_items f) as [i|] eqn:Ei; [|apply calm_ret; constructor].
    eapply calm_bind'; [eapply calm_pre; [apply Hrec|]|firmly|intros us]. { intros h [_ [_ A1]]. now apply A1. }
    apply calm_upd_arr; [firmly|here|]. intros h y [_ A1] _ z [= <-]. exact A1.
  - eapply calm_bind'; [eapply calm_pre; [apply calm_unwrap_optmap|]|firmly|intros _u]. { intros h [_ [_ [A1 _]]]. exact A1. }
    eapply calm_bind'; [apply calm_base; here|firmly|intros b'].
    destruct (b_shape b') as [sh'|] eqn:E'; [|apply calm_ret; constructor]. destruct sh'; try (apply calm_ret; constructor).
    eapply calm_pre; [apply calm_unwrap_optmap|]. intros h [_ B]. destruct (f_shape _ _ B) as (x & Ex & Fx). rewrite E' in Ex. injection Ex as <-. apply Fx.
  - apply calm_pure with (P := False); [|intros []]. intros h [_ [_ [A1 _]]]. exact (HU A1).
Qed.
Lemma calm_more_parents k sl ss N : forall i, calm (unwrap_more_parents rec k inh sl ss i) (fun h => lv h sl (TSlice N) /\ lv h ss TBase) any_.
Proof.
  induction k as [|k IH]; intros i; [apply calm_diverge|]. cbn [unwrap_more_parents].
  eapply calm_bind'; [apply calm_slice_n; intros h A1; exact (proj1 A1)|firmly|intros l]. destruct (nth_error l i) as [p|] eqn:E; [|apply calm_ret; constructor].
  apply calm_pure with (P := List.length l = N); [intros h [_ [_ X]]; exact X|]. intros Ln. assert (i < N). { rewrite <- Ln. apply nth_error_Some. congruence. }
  eapply calm_bind'; [eapply calm_pre; [apply Hrec|]|firmly|intros us]. { intros h [_ [A1 _]]. exact (A1 _ (nth_error_In _ _ E)). }
  eapply calm_bind'; [eapply calm_pre; [apply Hinh|]|firmly|intros us']. { intros h [[[_ A1] _] B]. split; assumption. }
  eapply calm_bind'; [eapply calm_slice_set; [|eassumption]|firmly|intros _u]. { intros h [[[[A1 _] _] _] B]. split; [exact A1|exact B]. }
  eapply calm_pre; [apply IH|]. intros h A1. decompose [and] A1. split; assumption.
Qed.
Lemma calm_unwrap_parents a : calm (unwrap_parents n rec inh a) (fun h => lv h a TBase) opt_lv.
Proof.
  unfold unwrap_parents. eapply calm_bind'; [apply calm_base; intros h A1; exact A1|firmly|intros b].
  destruct (b_link b) as [l|] eqn:El.
  - eapply calm_bind'; [apply calm_dt; intros h [_ B]; exact (f_link _ _ B _ El)|firmly|intros d].
    destruct d as [ds|]. 2:{ intros s F [_ (y & A1 & _)]. discriminate A1. }
    apply calm_pre with (Pre' := fun h => lv h a TBase /\ lv h ds TBase). 2:{ intros h [[A1 _] (y & [= <-] & B)]. split; assumption. }
    eapply calm_bind'; [eapply calm_pre; [apply Hrec|here]|firmly|intros us].
    eapply calm_bind'; [apply calm_upd_base; [firmly|here|]|firmly|intros _u].
    + intros h b0 _ [A1 B C D E F]. split; try assumption. intros x; discriminate.
    + apply calm_ret. intros h [[_ A1] _] x [= <-]. exact A1.
  - apply calm_length with (a := b_inherits b); [intros h [_ B]; exact (f_inherits _ _ B)|]. intros N.
    eapply calm_bind'; [apply calm_slice_n with (n := N); here|firmly|intros inhs]. destruct inhs as [|p0 r]; [apply calm_ret; intros h _ x; discriminate|].
    apply calm_pure with (P := 0 < N). { intros h [_ [_ X]]. rewrite <- X. cbn. lia. } intros N0.
    eapply calm_bind'; [eapply calm_pre; [apply Hrec|]|firmly|intros ss]. { intros h [_ [A1 _]]. apply A1. now left. }
    eapply calm_bind'; [eapply calm_slice_set; [|exact N0]|firmly|intros _u]. { intros h [[[_ A1] _] B]. split; assumption. }
    eapply calm_bind'; [eapply calm_pre; [apply (calm_more_parents n _ _ N)|]|firmly|intros _u2].
    { intros h A1. decompose [and] A1. split; assumption. }
    apply calm_ret. intros h A1 x [= <-]. decompose [and] A1. assumption.
Qed.
Lemma calm_unwrap_fdefs a : calm (unwrap_fdefs n rec a) (fun h => lv h a TBase) any_.
Proof.
  unfold unwrap_fdefs. eapply calm_bind'; [apply calm_base; intros h A1; exact A1|firmly|intros b].
  apply calm_loop_props; [firmly|intros h [_ B]; exact (f_fdefs _ _ B)|]. intros k p.
  eapply calm_bind'; [eapply calm_pre; [apply Hrec|here]|firmly|intros us].
  eapply calm_bind'; [apply calm_alloc; intros h _ x y []|firmly|intros e].
  eapply calm_bind'; [apply calm_upd_base; [firmly|here|]|firmly|intros _u].
  { intros h b0 [_ A1] [B1 B2 B3 B4 B5 B6]. split; try assumption. }
  eapply calm_bind'; [apply calm_base; here|firmly|intros b'].
  apply calm_props_set; [firmly|]. intros h A1. split; [exact (f_fdefs _ _ (proj2 A1))|]. decompose [and] A1. assumption.
Qed.
End Unwrap.
Lemma calm_unwrap n : forall a, calm (unwrap n a) (fun h => lv h a TBase) (fun x h => lv h x TBase).
Proof.
  induction n as [|n IH]; intros a; [apply calm_diverge|]. cbn [unwrap].
  eapply calm_bind'; [apply calm_base; intros h A1; exact A1|firmly|intros b].
  destruct (b_shape b); [|apply calm_fail]. destruct (b_unwrapped b); [apply calm_ret; here|].
  eapply calm_bind'; [apply calm_upd_base; [firmly|here|intros h b0 _; apply soft_fine; reflexivity]|firmly|intros _u].
  destruct (b_alias b) as [al|] eqn:Ea.
  - eapply calm_bind'; [eapply calm_pre; [apply IH|]|firmly|intros us]. { intros h [[_ B] _]. exact (f_alias _ _ B _ Ea). }
    eapply calm_bind'; [apply calm_put_shape|firmly|intros _u2]. apply calm_alias_to; [firmly|]. intros h A1. decompose [and] A1. split; assumption.
  - eapply calm_bind'; [eapply calm_pre; [apply (calm_unwrap_parents n _ IH _ (calm_inherit n))|here]|firmly|intros src].
    eapply calm_bind'; [eapply calm_pre; [apply (calm_unwrap_target n _ IH)|here]|apply firm_and; [firmly|apply firm_opt]|intros _u2].
    eapply calm_bind'; [eapply calm_pre; [apply (calm_unwrap_fdefs n _ IH)|here]|apply firm_and; [apply firm_and; [firmly|apply firm_opt]|firmly]|intros _u3].
    eapply calm_bind' with (Q := fun x h => lv h x TBase).
    + destruct src as [s0|]; [|apply calm_ret; here]. eapply calm_pre; [apply calm_inherit|]. intros h A1. decompose [and] A1. split; [assumption|].
      match goal with H : opt_lv _ _ |- _ => now apply H end.
    + apply firm_and; [apply firm_and; [apply firm_and; [firmly|apply firm_opt]|firmly]|firmly].
    + intros a'. eapply calm_bind'; [apply calm_put_shape|apply firm_and; [apply firm_and; [apply firm_and; [apply firm_and; [firmly|apply firm_opt]|firmly]|firmly]|firmly]|intros _u4].
      apply calm_ret. here.
Qed.

(** ** The whole model *)

Definition types_lv h (l : omap addr) : Prop := forall k a, In (k, a) l -> lv h a TBase.
Definition libs_lv h (L : libs) : Prop := forall lib, In lib L -> types_lv h (l_types lib) /\ types_lv h (l_annots lib).
Definition frag_lv (nl : nat) h (f : fragment) : Prop :=
  match f with FLib l => l < nl | FDT _ o => exists a, o = Some a /\ lv h a TBase | FNE => True end.
Definition frags_lv (nl : nat) h (fs : omap fragment) : Prop := forall k f, oget k fs = Some f -> frag_lv nl h f.
Definition index_lv h (i : index) : Prop := forall loc m k a, oget loc i = Some m -> oget k m = Some a -> lv h a TBase.
Definition exts_lv h (l : list ext) : Prop := forall e, In e l -> exists a, e_def e = Some a /\ lv h a TBase.
Lemma firm_types l : firm (fun h => types_lv h l). Proof. intros h h' G H k a J. exact (G _ _ (H k a J)). Qed.
Lemma firm_libs L : firm (fun h => libs_lv h L). Proof. intros h h' G H lib J. destruct (H lib J) as [A B]. split; [exact (firm_types _ _ _ G A)|exact (firm_types _ _ _ G B)]. Qed.
Lemma firm_frag nl f : firm (fun h => frag_lv nl h f).
Proof. intros h h' G H. destruct f; simpl in *; auto. destruct H as (a & E & L). exists a. auto. Qed.
Lemma firm_frags nl fs : firm (fun h => frags_lv nl h fs). Proof. intros h h' G H k f J. exact (firm_frag _ _ _ _ G (H k f J)). Qed.
Lemma firm_exts l : firm (fun h => exts_lv h l). Proof. intros h h' G H e J. destruct (H e J) as (a & E & L). exists a. auto. Qed.

Lemma firm_index i : firm (fun h => index_lv h i). Proof. intros h h' G H loc m k a J K. exact (G _ _ (H loc m k a J K)). Qed.
Lemma index_put_lv h i name loc a : index_lv h i -> lv h a TBase -> index_lv h (index_put name loc a i).
Proof.
  intros H L loc' m k x Hm Hk. unfold index_put in Hm. destruct (String.eqb_spec loc' loc) as [->|Ne].
  - rewrite Pipeline_proofs.oget_oset_same in Hm. injection Hm as <-. destruct (String.eqb_spec k name) as [->|Nk].
    + rewrite Pipeline_proofs.oget_oset_same in Hk. now injection Hk as <-.
    + rewrite Pipeline_proofs.oget_oset_other in Hk by exact Nk. destruct (oget loc i) as [m0|] eqn:Em; [exact (H _ _ _ _ Em Hk)|discriminate].
  - rewrite Pipeline_proofs.oget_oset_other in Hm by exact Ne. exact (H _ _ _ _ Hm Hk).
Qed.

Lemma calm_val_unwrap n a c : calm (val_unwrap n a c) (fun h => lv h a TBase /\ cm_lv h c) (fun r h => lv h (fst r) TBase /\ cm_lv h (snd r)).
Proof.
  unfold val_unwrap. eapply calm_bind'; [apply calm_base; here|firmly|intros b].
  destruct (b_unwrapped b); [apply calm_ret; intros h A1; decompose [and] A1; split; assumption|].
  eapply calm_bind'; [apply calm_clone_detached; [firmly|here]|firmly|intros a'].
  eapply calm_bind'; [eapply calm_pre; [apply calm_unwrap|here]|firmly|intros us].
  eapply calm_bind'; [eapply calm_pre; [apply calm_mark|here]|firmly|intros o].
  eapply calm_bind'; [apply calm_base; here|apply firm_and; [firmly|apply firm_opt]|intros b'].
  apply calm_ret. intros h A1. decompose [and] A1. split; [assumption|]. cbn [snd]. intros k x [J|J]; [injection J as _ <-; assumption|eauto].
Qed.

Lemma calm_check_type n O a : calm (check_type n O a) (fun h => lv h a TBase) any_.
Proof.
  intros s F P. unfold check_type. pose proof (check_quiet n O (heap s) F a P) as Q1. pose proof (commons_quiet n O (heap s) F a P) as Q2.
  destruct (check n O (heap s) a); cbn [fst snd]; (split; [assumption || discriminate|]); (split; [exact F|]); (split; [apply grow_refl|]); intros x _; exact I.
Qed.

Lemma calm_validate_type n O a c : calm (validate_type n O a c) (fun h => lv h a TBase /\ cm_lv h c) (fun r h => cm_lv h (snd r)).
Proof.
  unfold validate_type. eapply calm_bind'; [apply calm_try, calm_val_unwrap|firmly|intros r].
  destruct r as [[us c']|]; [|apply calm_ret; here].
  eapply calm_pre with (Pre' := fun h => lv h us TBase /\ cm_lv h c'); [|intros h [_ A1]; exact (A1 _ eq_refl)].
  eapply calm_bind'; [apply calm_try; eapply calm_pre; [apply calm_check_type|here]|firmly|intros k].
  apply calm_ret. intros h A1. decompose [and] A1. assumption.
Qed.

Lemma calm_validate_types n O l : forall c, calm (validate_types n O l c) (fun h => types_lv h l /\ cm_lv h c) (fun r h => cm_lv h (snd r)).
Proof.
  induction l as [|[k a] l IH]; intros c; cbn [validate_types]; [apply calm_ret; here|].
  assert (Fc := firm_types ((k, a) :: l)).
  eapply calm_bind'; [eapply calm_pre; [apply calm_validate_type|]|apply firm_and; [exact Fc|firmly]|intros r].
  { intros h [A1 B1]. split; [exact (A1 k a (or_introl eq_refl))|exact B1]. }
  eapply calm_bind'; [eapply calm_pre; [apply IH|]|apply firm_and; [apply firm_and; [exact Fc|firmly]|firmly]|intros r'].
  { intros h [[A1 _] B1]. split; [intros k' a' J; exact (A1 k' a' (or_intror J))|exact B1]. }
  apply calm_ret. intros h [_ A1]. exact A1.
Qed.

Lemma calm_validate_library n O lib c : calm (validate_library n O lib c) (fun h => (types_lv h (l_types lib) /\ types_lv h (l_annots lib)) /\ cm_lv h c) (fun r h => cm_lv h (snd r)).
Proof.
  assert (F1 := firm_types (l_types lib)). assert (F2 := firm_types (l_annots lib)). assert (Fc := firm_cm c).
  assert (F3 : firm (fun h => (types_lv h (l_types lib) /\ types_lv h (l_annots lib)) /\ cm_lv h c)). { apply firm_and; [apply firm_and|]; assumption. }
  unfold validate_library. eapply calm_bind'; [eapply calm_pre; [apply calm_validate_types|intros h A1; decompose [and] A1; split; assumption]|exact F3|intros r].
  eapply calm_bind'; [eapply calm_pre; [apply calm_validate_types|intros h A1; decompose [and] A1; split; assumption]|apply firm_and; [exact F3|firmly]|intros r'].
  apply calm_ret. intros h [_ A1]. exact A1.
Qed.

Lemma calm_validate_fragment n O L f c : calm (validate_fragment n O L f c) (fun h => (libs_lv h L /\ frag_lv (List.length L) h f) /\ cm_lv h c) (fun r h => cm_lv h (snd r)).
Proof.
  destruct f as [l|uses [a|]|]; cbn [validate_fragment].
  - destruct (nth_error L l) as [lib|] eqn:N.
    + eapply calm_pre; [apply calm_validate_library|]. intros h [[A1 _] B1]. split; [|exact B1]. exact (A1 _ (nth_error_In _ _ N)).
    + apply calm_pure with (P := l < List.length L); [intros h [[_ A1] _]; exact A1|]. intros Hl. apply nth_error_None in N. lia.
  - eapply calm_pre; [apply calm_validate_type|]. intros h [[_ (y & E & A1)] B1]. injection E as <-. split; assumption.
  - apply calm_pure with (P := False); [intros h [[_ (y & E & _)] _]; discriminate|tauto].
  - apply calm_ret. here.
Qed.

Lemma calm_validate_fragments n O M order : forall c, calm (validate_fragments n O M order c)
  (fun h => (libs_lv h (r_libs M) /\ frags_lv (List.length (r_libs M)) h (r_frags M)) /\ cm_lv h c) (fun r h => cm_lv h (snd r)).
Proof.
  assert (F1 := firm_libs (r_libs M)). assert (F2 := firm_frags (List.length (r_libs M)) (r_frags M)).
  induction order as [|k order IH]; intros c; cbn [validate_fragments]; [apply calm_ret; here|].
  destruct (oget k (r_frags M)) as [f|] eqn:J; [|apply IH].
  assert (F3 : firm (fun h => (libs_lv h (r_libs M) /\ frags_lv (List.length (r_libs M)) h (r_frags M)) /\ cm_lv h c)). { apply firm_and; [apply firm_and; assumption|firmly]. }
  eapply calm_bind'; [eapply calm_pre; [apply calm_validate_fragment|]|exact F3|intros r].
  { intros h [[A1 B1] C1]. split; [split; [exact A1|exact (B1 _ _ J)]|exact C1]. }
  eapply calm_bind'; [eapply calm_pre; [apply IH|]|apply firm_and; [exact F3|firmly]|intros r'].
  { intros h [[A1 _] B1]. split; assumption. }
  apply calm_ret. intros h [_ A1]. exact A1.
Qed.

Lemma calm_validate_ext n O e c : calm (validate_ext n O e c) (fun h => (exists a, e_def e = Some a /\ lv h a TBase) /\ cm_lv h c) any_.
Proof.
  unfold validate_ext. destruct (e_def e) as [db|].
  2:{ apply calm_pure with (P := False); [intros h [(y & E & _) _]; discriminate|tauto]. }
  apply calm_pre with (Pre' := fun h => lv h db TBase /\ cm_lv h c); [|intros h [(y & E & A1) B1]; injection E as <-; split; assumption].
  eapply calm_bind'; [apply calm_base; here|firmly|intros b].
  eapply calm_bind' with (Q := fun x h => lv h x TBase); [|firmly|intros x].
  - destruct (b_unwrapped b); [apply calm_ret; here|]. destruct (cm_get (b_id b) c) as [us|] eqn:G; [|apply calm_fail].
    apply cm_get_in in G. destruct G as [k J]. apply calm_ret. intros h A1. decompose [and] A1. eauto.
  - intros s F [_ P]. cbn [fst snd]. split; [apply validate_quiet; assumption|]. split; [exact F|]. split; [apply grow_refl|]. intros y _. exact I.
Qed.

Lemma calm_validate_exts n O l c : calm (validate_exts n O l c) (fun h => exts_lv h l /\ cm_lv h c) any_.
Proof.
  induction l as [|e l IH]; cbn [validate_exts]; [apply calm_ret; intros; exact I|].
  assert (F1 := firm_exts (e :: l)).
  eapply calm_bind'; [apply calm_try; eapply calm_pre; [apply calm_validate_ext|]|apply firm_and; [exact F1|firmly]|intros k].
  { intros h [A1 B1]. split; [apply A1; now left|exact B1]. }
  eapply calm_bind'; [eapply calm_pre; [apply IH|]|apply firm_and; [apply firm_and; [exact F1|firmly]|]|intros ok; apply calm_ret; intros; exact I].
  { intros h [[A1 B1] _]. split; [intros x J; apply A1; now right|exact B1]. }
  intros h h' G H x E. exact I.
Qed.

Lemma calm_validate_shapes n O order M : calm (validate_shapes n O order M)
  (fun h => (libs_lv h (r_libs M) /\ frags_lv (List.length (r_libs M)) h (r_frags M)) /\ exts_lv h (r_exts M)) any_.
Proof.
  assert (F1 := firm_libs (r_libs M)). assert (F2 := firm_frags (List.length (r_libs M)) (r_frags M)). assert (F3 := firm_exts (r_exts M)).
  assert (F4 : firm (fun h => (libs_lv h (r_libs M) /\ frags_lv (List.length (r_libs M)) h (r_frags M)) /\ exts_lv h (r_exts M))). { apply firm_and; [apply firm_and|]; assumption. }
  unfold validate_shapes. eapply calm_bind'; [eapply calm_pre; [apply calm_validate_fragments|]|exact F4|intros r].
  { intros h [A1 _]. split; [exact A1|]. intros k a []. }
  eapply calm_bind'; [eapply calm_pre; [apply calm_validate_exts|]|apply firm_and; [exact F4|firmly]|intros ok].
  { intros h [[_ A1] B1]. split; assumption. }
  destruct (fst r && ok); [apply calm_ret; intros; exact I|apply calm_fail].
Qed.

(** *** UnwrapShapes *)

Lemma calm_unwrap_types n loc l : forall i, calm (unwrap_types n loc l i) (fun h => types_lv h l /\ index_lv h i)
  (fun r h => types_lv h (snd (fst r)) /\ index_lv h (snd r)).
Proof.
  induction l as [|[k a] l IH]; intros i; cbn [unwrap_types]; [apply calm_ret; intros h [_ A1]; split; [intros ? ? []|exact A1]|].
  assert (F1 : firm (fun h => types_lv h ((k, a) :: l) /\ index_lv h i)) by (apply firm_and; [apply firm_types|apply firm_index]).
  eapply calm_bind'; [apply calm_try; eapply calm_pre; [apply calm_unwrap|]|exact F1|intros r].
  { intros h [A1 _]. exact (A1 k a (or_introl eq_refl)). }
  destruct r as [us|].
  - apply calm_pre with (Pre' := fun h => (types_lv h ((k, a) :: l) /\ index_lv h i) /\ lv h us TBase); [|intros h [A1 B1]; split; [exact A1|exact (B1 _ eq_refl)]].
    eapply calm_bind'; [apply calm_base; here|apply firm_and; [exact F1|firmly]|intros ub].
    eapply calm_bind'; [eapply calm_pre; [apply IH|]|apply firm_and; [apply firm_and; [exact F1|firmly]|apply firm_b]|intros x].
    { intros h [[[A1 B1] _] _]. split; [intros k' a' J; exact (A1 k' a' (or_intror J))|].
      apply index_put_lv; [exact B1|exact (A1 k a (or_introl eq_refl))]. }
    destruct x as [[ok l''] i']. apply calm_ret. intros h [[[_ A1] _] [B1 C1]]. split; [|exact C1]. intros k' a' [J|J]; [injection J as _ <-; exact A1|exact (B1 _ _ J)].
  - apply calm_pre with (Pre' := fun h => types_lv h ((k, a) :: l) /\ index_lv h i); [|intros h [A1 B1]; exact A1].
    eapply calm_bind'; [eapply calm_pre; [apply IH|]|exact F1|intros x].
    { intros h [A1 B1]. split; [intros k' a' J; exact (A1 k' a' (or_intror J))|exact B1]. }
    destruct x as [[ok l''] i']. apply calm_ret. intros h [[A1 _] [B1 C1]]. split; [|exact C1].
    intros k' a' [J|J]; [injection J as _ <-; exact (A1 k a (or_introl eq_refl))|exact (B1 _ _ J)].
Qed.

Definition u_lv h (u : ust) : Prop := (libs_lv h (u_libs u) /\ frags_lv (List.length (u_libs u)) h (u_frags u)) /\ index_lv h (u_types u) /\ index_lv h (u_annots u).
Lemma firm_u u : firm (fun h => u_lv h u).
Proof. apply firm_and; [apply firm_and; [apply firm_libs|apply firm_frags]|apply firm_and; apply firm_index]. Qed.

Lemma calm_relink a us : calm (relink a us) (fun h => lv h us TBase) any_.
Proof.
  intros s F P. cbn.
  assert (G : grow (heap s) (map (fun c => match c with CDT (Some x) => if Nat.eqb x a then CDT (Some us) else c | _ => c end) (heap s))).
  { intros x k [r (c & E & K)]. split; [exact r|]. rewrite nth_error_map, E. cbn. eexists. split; [reflexivity|]. rewrite <- K.
    destruct c as [| | | |[y|]]; try reflexivity. now destruct (Nat.eqb y a). }
  split; [discriminate|]. split; [|split; [exact G|intros; exact I]].
  split; [rewrite map_length; exact (proj1 F)|]. intros x c r E. rewrite nth_error_map in E.
  destruct (nth_error (heap s) x) as [c0|] eqn:N; [|discriminate]. cbn in E. injection E as <-.
  pose proof (proj2 F x c0 r N) as C. pose proof (firm_c c0 _ _ G C) as C'.
  destruct c0 as [| | | |[y|]]; try exact C'. destruct (Nat.eqb y a); [|exact C']. exists us. split; [reflexivity|]. exact (G _ _ P).
Qed.

Lemma calm_unwrap_fragment n loc f u : calm (unwrap_fragment n loc f u) (fun h => u_lv h u /\ frag_lv (List.length (u_libs u)) h f) (fun u' h => u_lv h u').
Proof.
  assert (F1 := firm_u u).
  destruct f as [l|uses [a|]|]; cbn [unwrap_fragment].
  - apply calm_pure with (P := l < List.length (u_libs u)); [intros h [_ A1]; exact A1|]. intros Hl.
    destruct (nth_error (u_libs u) l) as [lib|] eqn:N; [|apply nth_error_None in N; lia].
    assert (J := nth_error_In _ _ N).
    apply calm_pre with (Pre' := fun h => u_lv h u); [|intros h [A1 _]; exact A1].
    eapply calm_bind'; [eapply calm_pre; [apply calm_unwrap_types|]|exact F1|intros x].
    { intros h [[A1 _] [_ C1]]. split; [exact (proj2 (A1 _ J))|exact C1]. }
    eapply calm_bind'; [eapply calm_pre; [apply calm_unwrap_types|]|apply firm_and; [exact F1|apply firm_and; [apply firm_types|apply firm_index]]|intros y].
    { intros h [[[A1 _] [C1 _]] _]. split; [exact (proj1 (A1 _ J))|exact C1]. }
    destruct x as [[ok an] ia]. destruct y as [[ok' ty] it]. cbn [fst snd].
    apply calm_ret. intros h [[[[A1 A2] _] [B1 B2]] [C1 C2]]. split; [split|split]; cbn [u_libs u_frags u_types u_annots]; try assumption.
    + intros lib' J'. apply in_upd in J'. destruct J' as [->|J']; [split; assumption|exact (A1 _ J')].
    + rewrite upd_length. exact A2.
  - eapply calm_bind'; [apply calm_try; eapply calm_pre; [apply calm_unwrap|]|apply firm_and; [exact F1|apply firm_frag]|intros r].
    { intros h [_ (y & E & A1)]. injection E as <-. exact A1. }
    destruct r as [us|]; [|apply calm_ret; intros h [[A1 _] _]; exact A1].
    apply calm_pre with (Pre' := fun h => u_lv h u /\ lv h us TBase); [|intros h [[A1 _] B1]; split; [exact A1|exact (B1 _ eq_refl)]].
    eapply calm_bind'; [eapply calm_pre; [apply calm_relink|intros h [_ B1]; exact B1]|apply firm_and; [exact F1|firmly]|intros _u].
    apply calm_pre with (Pre' := fun h => u_lv h u /\ lv h us TBase); [|intros h [A1 _]; exact A1].
    eapply calm_bind'; [apply calm_base; here|apply firm_and; [exact F1|firmly]|intros ub].
    apply calm_ret. intros h [[[[A1 A2] [A3 A4]] B1] _]. split; [split|split]; cbn [u_libs u_frags u_types u_annots]; try assumption; [|apply index_put_lv; assumption].
    intros k f J. destruct (String.eqb_spec k loc) as [->|Ne]; [rewrite Pipeline_proofs.oget_oset_same in J; injection J as <-; exists us; split; [reflexivity|exact B1]|].
    rewrite Pipeline_proofs.oget_oset_other in J by exact Ne. exact (A2 _ _ J).
  - apply calm_pure with (P := False); [intros h [_ (y & E & _)]; discriminate|tauto].
  - apply calm_ret. intros h [A1 _]. exact A1.
Qed.

Lemma calm_unwrap_fragments n order : forall u, calm (unwrap_fragments n order u) (fun h => u_lv h u) (fun u' h => u_lv h u').
Proof.
  induction order as [|k order IH]; intros u; cbn [unwrap_fragments]; [apply calm_ret; auto|].
  destruct (oget k (u_frags u)) as [f|] eqn:J; [|apply IH].
  eapply calm_bind'; [eapply calm_pre; [apply calm_unwrap_fragment|]|apply firm_u|intros u'].
  { intros h A1. split; [exact A1|exact (proj2 (proj1 A1) _ _ J)]. }
  eapply calm_pre; [apply IH|]. intros h [_ A1]. exact A1.
Qed.

Lemma calm_mark_fragment n L f : calm (mark_fragment n L f) (fun h => libs_lv h L /\ frag_lv (List.length L) h f) any_.
Proof.
  destruct f as [l|uses [a|]|]; cbn [mark_fragment].
  - apply calm_pure with (P := l < List.length L); [intros h [_ A1]; exact A1|]. intros Hl.
    destruct (nth_error L l) as [lib|] eqn:N; [|apply nth_error_None in N; lia]. assert (J := nth_error_In _ _ N).
    assert (X : forall h m, types_lv h m -> all_lv h (map snd m)).
    { intros h m A1 x Jx. apply in_map_iff in Jx. destruct Jx as ([k y] & <- & Jx). exact (A1 _ _ Jx). }
    eapply calm_bind'; [eapply calm_pre; [apply calm_mark_all|]|apply firm_and; [apply firm_libs|apply firm_frag]|intros _u].
    { intros h [A1 _]. apply X. exact (proj2 (A1 _ J)). }
    eapply calm_pre; [apply calm_mark_all|]. intros h [[A1 _] _]. apply X. exact (proj1 (A1 _ J)).
  - eapply calm_pre; [apply calm_mark_all|]. intros h [_ (y & E & A1)] x [<-|[]]. injection E as <-. exact A1.
  - apply calm_pure with (P := False); [intros h [_ (y & E & _)]; discriminate|tauto].
  - apply calm_ret. intros; exact I.
Qed.

Lemma calm_mark_fragments n L fs order : calm (mark_fragments n order L fs) (fun h => libs_lv h L /\ frags_lv (List.length L) h fs) any_.
Proof.
  induction order as [|k order IH]; cbn [mark_fragments]; [apply calm_ret; intros; exact I|].
  destruct (oget k fs) as [f|] eqn:J; [|apply IH].
  eapply calm_bind'; [eapply calm_pre; [apply calm_mark_fragment|]|apply firm_and; [apply firm_libs|apply firm_frags]|intros _u].
  { intros h [A1 B1]. split; [exact A1|exact (B1 _ _ J)]. }
  eapply calm_pre; [apply IH|]. intros h [A1 _]. exact A1.
Qed.

(** An annotation whose type is known. *)
Definition ext_lv h (l : list ext) : Prop := forall e a, In e l -> e_def e = Some a -> lv h a TBase.
Lemma firm_ext l : firm (fun h => ext_lv h l). Proof. intros h h' G H e a J E. exact (G _ _ (H e a J E)). Qed.

Lemma calm_unwrap_exts i l : calm (unwrap_exts i l) (fun h => exts_lv h l /\ index_lv h i) (fun r h => ext_lv h (snd r)).
Proof.
  induction l as [|e l IH]; cbn [unwrap_exts]; [apply calm_ret; intros h _ e a []|].
  assert (F1 : firm (fun h => exts_lv h (e :: l) /\ index_lv h i)) by (apply firm_and; [apply firm_exts|apply firm_index]).
  destruct (e_def e) as [db|] eqn:Ed.
  2:{ apply calm_pure with (P := False); [|tauto]. intros h [A1 _]. destruct (A1 e (or_introl eq_refl)) as (y & E & _). congruence. }
  assert (Ld : forall h, exts_lv h (e :: l) -> lv h db TBase).
  { intros h A1. destruct (A1 e (or_introl eq_refl)) as (y & E & L). rewrite Ed in E. injection E as <-. exact L. }
  eapply calm_bind'; [apply calm_base; intros h [A1 _]; exact (Ld _ A1)|exact F1|intros b].
  eapply calm_bind'; [eapply calm_pre; [apply IH|]|apply firm_and; [exact F1|firmly]|intros x].
  { intros h [[A1 B1] _]. split; [intros y J; apply A1; now right|exact B1]. }
  destruct (index_get (b_loc b) (b_name b) i) as [o| | |] eqn:Ig; apply calm_ret; intros h [[[A1 B1] _] C1]; cbn [snd]; intros y z [<-|J] Ey;
    try exact (C1 _ _ J Ey); try (rewrite Ed in Ey; injection Ey as <-; exact (Ld _ A1)).
  cbn in Ey. subst o. unfold index_get in Ig. destruct (oget (b_loc b) i) as [m|] eqn:Em; [|discriminate]. injection Ig as Ig. exact (B1 _ _ _ _ Em Ig).
Qed.

Lemma calm_unwrap_shapes n o1 o2 M : calm (unwrap_shapes n o1 o2 M)
  (fun h => (libs_lv h (r_libs M) /\ frags_lv (List.length (r_libs M)) h (r_frags M)) /\ exts_lv h (r_exts M))
  (fun M' h => (libs_lv h (r_libs M') /\ frags_lv (List.length (r_libs M')) h (r_frags M')) /\ ext_lv h (r_exts M')).
Proof.
  assert (F1 := firm_libs (r_libs M)). assert (F2 := firm_frags (List.length (r_libs M)) (r_frags M)). assert (F3 := firm_exts (r_exts M)).
  assert (F4 : firm (fun h => (libs_lv h (r_libs M) /\ frags_lv (List.length (r_libs M)) h (r_frags M)) /\ exts_lv h (r_exts M))). { apply firm_and; [apply firm_and|]; assumption. }
  unfold unwrap_shapes. eapply calm_bind' with (Q := any_); [|exact F4|intros _u].
  { intros s F P. cbn. split; [discriminate|]. split; [exact F|]. split; [apply grow_refl|]. intros x _. exact I. }
  eapply calm_bind'; [eapply calm_pre; [apply calm_unwrap_fragments|]|apply firm_and; [exact F4|intros h h' G H; exact I]|intros u].
  { intros h [[A1 _] _]. split; [exact A1|]. split; intros loc m k a J; discriminate. }
  destruct (negb (u_ok u)); [apply calm_fail|].
  eapply calm_bind'; [eapply calm_pre; [apply calm_mark_fragments|]| |intros _u2].
  { intros h [_ [A1 _]]. exact A1. }
  { apply firm_and; [apply firm_and; [exact F4|intros h h' G H; exact I]|apply firm_u]. }
  eapply calm_bind'; [eapply calm_pre; [apply calm_unwrap_exts|]| |intros x].
  { intros h [[[[_ A1] _] [_ [_ B1]]] _]. split; assumption. }
  { apply firm_and; [apply firm_and; [apply firm_and; [exact F4|intros h h' G H; exact I]|apply firm_u]|intros h h' G H; exact I]. }
  destruct (negb (fst x)); [apply calm_fail|]. apply calm_ret. intros h [[[_ [A1 _]] _] B1]. split; assumption.
Qed.
End Live.

(** * From a complete model *)

Section Start.
Variable h0 : list cell.
Hypothesis W : wf_heap h0.

(** The cells a type can reach, and those that are still to come. *)
Definition live (a : addr) : Prop :=
  List.length h0 <= a \/ (exists b, get_base h0 a = Some b)
  \/ exists x b, get_base h0 x = Some b /\ (owns b a \/ b_link b = Some a).
Lemma live_new a : List.length h0 <= a -> live a. Proof. now left. Qed.

Variable EP : enum -> Prop.
Variable US RS : Prop.
Hypothesis He : forall a b sh, get_base h0 a = Some b -> b_shape b = Some sh -> EP (Spec_Calm.enum_of sh).
Hypothesis Hu : forall a b sl e, get_base h0 a = Some b -> b_shape b = Some (SUnion sl e) -> US.
Hypothesis Hr : forall a b hd, get_base h0 a = Some b -> b_shape b = Some (SRec hd) -> RS.

Lemma live_base a b : get_base h0 a = Some b -> lv live h0 a TBase.
Proof. intros H. split; [right; left; eauto|]. exists (CBase b). split; [now apply get_base_nth|reflexivity]. Qed.
Lemma live_owned x b a c : get_base h0 x = Some b -> owns b a \/ b_link b = Some a -> nth_error h0 a = Some c -> lv live h0 a (sort_of c).
Proof. intros H O N. split; [right; right; eauto|]. eauto. Qed.

Lemma live_ref a b x : get_base h0 a = Some b -> ref h0 b x -> lv live h0 x TBase.
Proof. intros H Rf. destruct (W _ _ H) as [_ Rs]. destruct (Rs _ Rf) as [b' B']. exact (live_base _ _ B'). Qed.

Lemma props_nth h a m : get_props h a = Some m -> nth_error h a = Some (CProps m).
Proof. unfold get_props. destruct (nth_error h a) as [[]|]; congruence. Qed.
Lemma slice_nth h a m : get_slice h a = Some m -> nth_error h a = Some (CSlice m).
Proof. unfold get_slice. destruct (nth_error h a) as [[]|]; congruence. Qed.
Lemma facets_nth h a m : get_facets h a = Some m -> nth_error h a = Some (CFacets m).
Proof. unfold get_facets. destruct (nth_error h a) as [[]|]; congruence. Qed.
Lemma dt_nth h a m : get_dt h a = Some m -> nth_error h a = Some (CDT m).
Proof. unfold get_dt. destruct (nth_error h a) as [[]|]; congruence. Qed.

Lemma start_shape a b sh : get_base h0 a = Some b -> b_shape b = Some sh -> closed_shape h0 sh -> sh_fine live EP US RS h0 sh.
Proof.
  intros H Q [_ C]. split; [exact (He _ _ _ H Q)|]. destruct sh as [| | | | | | | | | | |f|f|sl e| | |hd]; auto.
  - intros i E. apply (live_ref _ _ _ H). eapply rf_child; [exact Q|now constructor].
  - destruct C as [(ps & C1) (pps & C2)]. split; intros m E.
    + destruct C1 as [[C1 _]|(m' & E' & G)]; [congruence|]. assert (m' = m) by congruence. subst m'.
      refine (live_owned _ _ _ (CProps ps) H (or_introl _) (props_nth _ _ _ G)). eapply ow_props; eauto.
    + destruct C2 as [[C2 _]|(m' & E' & G)]; [congruence|]. assert (m' = m) by congruence. subst m'.
      refine (live_owned _ _ _ (CProps pps) H (or_introl _) (props_nth _ _ _ G)). eapply ow_pprops; eauto.
  - split; [exact (Hu _ _ _ _ H Q)|]. destruct C as [l C]. exists (List.length l).
    refine (live_owned _ _ _ (CSlice l) H (or_introl _) (slice_nth _ _ _ C)). eapply ow_anyof; eauto.
  - split; [exact (Hr _ _ _ H Q)|]. apply (live_ref _ _ _ H). eapply rf_child; [exact Q|constructor].
Qed.

Lemma start_base a b : get_base h0 a = Some b -> b_fine live EP US RS h0 b.
Proof.
  intros H. destruct (W _ _ H) as [((m1 & C1) & (m2 & C2) & (l3 & C3) & C4 & (sh & C5 & C6)) _]. split.
  - exact (live_owned _ _ _ (CFacets m1) H (or_introl (ow_facets b)) (facets_nth _ _ _ C1)).
  - exact (live_owned _ _ _ (CProps m2) H (or_introl (ow_fdefs b)) (props_nth _ _ _ C2)).
  - exists (List.length l3). exact (live_owned _ _ _ (CSlice l3) H (or_introl (ow_inherits b)) (slice_nth _ _ _ C3)).
  - intros d E. destruct (C4 _ E) as [x D]. exact (live_owned _ _ _ (CDT (Some x)) H (or_intror E) (dt_nth _ _ _ D)).
  - intros x E. apply (live_ref _ _ _ H). now apply rf_alias.
  - exists sh. split; [exact C5|]. exact (start_shape _ _ _ H C5 C6).
Qed.

Lemma start_owned x b a c : get_base h0 x = Some b -> owns b a -> nth_error h0 a = Some c -> c_fine live EP US RS h0 c.
Proof.
  intros H O N. destruct (W _ _ H) as [((m1 & C1) & (m2 & C2) & (l3 & C3) & _ & (sh & C5 & C6)) _].
  destruct O as [| | |f m Q Em|f m Q Em|sl e Q].
  - apply facets_nth in C1. rewrite N in C1. injection C1 as ->. exact I.
  - pose proof (props_nth _ _ _ C2) as C. rewrite N in C. injection C as ->. intros k p J. apply (live_ref _ _ _ H). eapply rf_fdef; eauto.
  - pose proof (slice_nth _ _ _ C3) as C. rewrite N in C. injection C as ->. intros y J. apply (live_ref _ _ _ H). eapply rf_parent; eauto.
  - rewrite Q in C5. injection C5 as <-. destruct C6 as [_ [(ps & C7) _]].
    pose proof C7 as C8. destruct C8 as [[C8 _]|(m' & E' & G)]; [congruence|]. assert (m' = m) by congruence. subst m'.
    apply props_nth in G. rewrite N in G. injection G as ->. intros k p J. apply (live_ref _ _ _ H). eapply rf_child; [exact Q|]. eapply ch_prop; eauto.
  - rewrite Q in C5. injection C5 as <-. destruct C6 as [_ [_ (ps & C7)]].
    pose proof C7 as C8. destruct C8 as [[C8 _]|(m' & E' & G)]; [congruence|]. assert (m' = m) by congruence. subst m'.
    apply props_nth in G. rewrite N in G. injection G as ->. intros k p J. apply (live_ref _ _ _ H). eapply rf_child; [exact Q|]. eapply ch_pprop; eauto.
  - rewrite Q in C5. injection C5 as <-. destruct C6 as [_ (l & C7)]. pose proof (slice_nth _ _ _ C7) as C. rewrite N in C. injection C as ->.
    intros y J. apply (live_ref _ _ _ H). eapply rf_child; [exact Q|]. eapply ch_member; eauto.
Qed.

Lemma start_fine : fine live (List.length h0) EP US RS h0.
Proof.
  split; [lia|]. intros a c [La|[(b & G)|(x & b & G & [O|L])]] N.
  - assert (a < List.length h0) by (apply nth_error_Some; congruence). lia.
  - pose proof (proj1 (get_base_nth _ _ _) G) as E. rewrite N in E. injection E as ->. exact (start_base _ _ G).
  - exact (start_owned _ _ _ _ G O N).
  - destruct (W _ _ G) as [(_ & _ & _ & C4 & _) _]. destruct (C4 _ L) as [y D]. pose proof (dt_nth _ _ _ D) as E. rewrite N in E. injection E as ->.
    exists y. split; [reflexivity|]. apply (live_ref _ _ _ G). eapply rf_link; eauto.
Qed.
End Start.

(** ** Enums *)

Lemma flat_none : flat None. Proof. intros l v E. discriminate. Qed.
Lemma compat_quiet source target : (forall v, In v target -> Spec_Calm.comparable v) -> isCompatibleEnum source target <> Panic.
Proof.
  induction target as [|v t IH]; intros C; cbn [isCompatibleEnum]; [discriminate|].
  pose proof (find_quiet v source (C v (or_introl eq_refl))) as Q. destruct (enum_find v source) as [[|]| | |]; try discriminate; [|now elim Q].
  apply IH. intros x J. apply C. now right.
Qed.
Lemma flat_inherit t s : flat t -> flat s -> enum_inherit t s <> Panic /\ forall e, enum_inherit t s = Ok e -> flat e.
Proof.
  intros Ft Fs. destruct t as [l|]; [|split; [discriminate|intros e [= <-]; exact Fs]].
  destruct s as [ls|]; [|split; [discriminate|intros e [= <-]; exact Ft]]. cbn [enum_inherit].
  pose proof (compat_quiet ls l (fun v J => Ft l v eq_refl J)) as Q. destruct (isCompatibleEnum ls l) as [[|]| | |]; cbn [rbind]; try (split; discriminate).
  - split; [discriminate|]. intros e [= <-]. exact Ft.
  - now elim Q.
Qed.

(** ** One operation *)

Definition always (e : enum) : Prop := True.
Lemma always_fine h : wf_heap h -> fine (live h) (List.length h) always True True h.
Proof. intros W. apply start_fine; auto; intros; exact I. Qed.
Lemma flat_fine h : wf_heap h -> Spec_Calm.plain_enums h -> fine (live h) (List.length h) flat True True h.
Proof.
  intros W P. apply start_fine; auto. intros a b sh G Q l v E J. exact (P _ _ _ _ _ G Q E J).
Qed.
Lemma free_fine h : wf_heap h -> Spec_Calm.plain_enums h -> Spec_Calm.union_free h -> fine (live h) (List.length h) flat False True h.
Proof.
  intros W P U. apply start_fine; auto.
  - intros a b sh G Q l v E J. exact (P _ _ _ _ _ G Q E J).
Qed.

Theorem clone_never s n a : wf_heap (heap s) -> (exists b, get_base (heap s) a = Some b) -> fst (clone_detached n a s) <> Panic.
Proof.
  intros W (b & G). pose proof (calm_clone_detached (live (heap s)) _ (live_new (heap s)) always True True n a (fun h => lv (live (heap s)) h a TBase)
    (firm_lv _ _ _) (fun h A => A) s (always_fine _ W) (live_base _ _ _ G)) as H. exact (proj1 H).
Qed.
Theorem mark_never s n a : wf_heap (heap s) -> (exists b, get_base (heap s) a = Some b) -> fst (mark n a s) <> Panic.
Proof.
  intros W (b & G). pose proof (calm_mark (live (heap s)) _ (live_new (heap s)) always True True I I n a s (always_fine _ W) (live_base _ _ _ G)) as H. exact (proj1 H).
Qed.
Theorem inherit_never s n a c : wf_heap (heap s) -> Spec_Calm.plain_enums (heap s) -> (exists b, get_base (heap s) a = Some b) -> (exists b, get_base (heap s) c = Some b) ->
  fst (inherit n a c s) <> Panic.
Proof.
  intros W P (b & G) (b' & G'). pose proof (calm_inherit (live (heap s)) _ (live_new (heap s)) flat True True flat_none flat_inherit n a c s (flat_fine _ W P)
    (conj (live_base _ _ _ G) (live_base _ _ _ G'))) as H. exact (proj1 H).
Qed.
Theorem check_never h n O a : wf_heap h -> (exists b, get_base h a = Some b) -> check n O h a <> Panic /\ commons n O h a <> Panic /\ forall v, validate n O h a v <> Panic.
Proof.
  intros W (b & G). pose proof (always_fine _ W) as F. pose proof (live_base _ _ _ G) as L. split; [|split].
  - exact (check_quiet _ _ _ _ _ n O h F a L).
  - exact (commons_quiet _ _ _ _ _ n O h F a L).
  - intros v. exact (validate_quiet _ _ _ _ _ n O h F a v L).
Qed.
Theorem unwrap_never s n a : wf_heap (heap s) -> Spec_Calm.plain_enums (heap s) -> Spec_Calm.union_free (heap s) -> (exists b, get_base (heap s) a = Some b) ->
  fst (unwrap n a s) <> Panic.
Proof.
  intros W P U (b & G). pose proof (calm_unwrap (live (heap s)) _ (live_new (heap s)) flat False True flat_none flat_inherit (fun f => f) n a s (free_fine _ W P U)
    (live_base _ _ _ G)) as H. exact (proj1 H).
Qed.
