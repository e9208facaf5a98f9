(** Property theorems: the order in which fragments are visited (C76, C52). *)
From Coq Require Import ZArith List String Bool Lia.
From Verif Require Import Base Scalars Heap Heap_lemmas Label_proofs Pipeline_proofs Spec_Model Spec_Mark Validate Spec_Validate Names Yaml Pipeline Spec_Pipeline Spec_Calm Decode Parse
  Props_Validate Props_Parse Props_Fresh Props_Quiet Props_Back Props_Reason Props_Ready Props_Found.
From Verif Require Decode_says.
Import ListNotations.
Open Scope string_scope.
Open Scope list_scope.
Open Scope nat_scope.

(** * Collecting errors *)

(** The loops of the validation go on after an error and stop at a panic. *)
Fixpoint collect (l : list (res unit)) : res bool :=
  match l with
  | [] => Ok true
  | Ok _ :: l' => collect l'
  | Err :: l' => match collect l' with Ok _ => Ok false | r => r end
  | Panic :: _ => Panic
  | OutOfFuel :: _ => OutOfFuel
  end.

Lemma collect_app l1 l2 : collect (l1 ++ l2) =
  match collect l1 with Ok b1 => match collect l2 with Ok b2 => Ok (b1 && b2) | r => r end | r => r end.
Proof.
  induction l1 as [|[[]| | |] l1 IH]; cbn [app collect]; try reflexivity.
  - destruct (collect l2); reflexivity.
  - exact IH.
  - rewrite IH. destruct (collect l1); try reflexivity. destruct (collect l2); reflexivity.
Qed.

Lemma collect_ok l b : collect l = Ok b ->
  (forall x, In x l -> x = Ok tt \/ x = Err) /\ (b = true <-> forall x, In x l -> x = Ok tt).
Proof.
  revert b. induction l as [|[[]| | |] l IH]; intros b E; cbn [collect] in E; try discriminate.
  - injection E as <-. split; [intros x []|]. split; [intros _ x []|reflexivity].
  - destruct (IH b E) as [A B]. split.
    + intros x [<-|J]; auto.
    + rewrite B. split; intros K x J; [destruct J as [<-|J]; auto|apply K; now right].
  - destruct (collect l) as [b'| | |]; try discriminate. injection E as <-. destruct (IH b' eq_refl) as [A _]. split.
    + intros x [<-|J]; auto.
    + split; [discriminate|]. intros K. specialize (K Err (or_introl eq_refl)). discriminate.
Qed.

Lemma collect_not l : collect l <> Err /\ (collect l = Panic -> In Panic l) /\ (collect l = OutOfFuel -> In OutOfFuel l).
Proof.
  induction l as [|[[]| | |] l (A & B & C)]; cbn [collect].
  - repeat split; discriminate.
  - repeat split; auto; intros K; right; auto.
  - destruct (collect l); repeat split; try discriminate; try congruence; intros K; right; auto.
  - repeat split; try discriminate. intros _. now left.
  - repeat split; try discriminate. intros _. now left.
Qed.

Lemma collect_same l l' : (forall x, In x l <-> In x l') -> collect l <> OutOfFuel -> collect l' <> OutOfFuel -> collect l = collect l'.
Proof.
  intros S F F'. destruct (collect_not l) as (N & Np & _). destruct (collect_not l') as (N' & Np' & _).
  destruct (collect l) as [b| | |] eqn:E; [|congruence| |congruence]; (destruct (collect l') as [b'| | |] eqn:E'; [|congruence| |congruence]).
  - destruct (collect_ok _ _ E) as [_ B]. destruct (collect_ok _ _ E') as [_ B']. f_equal.
    destruct b, b'; try reflexivity; exfalso.
    + assert (false = true); [|discriminate]. apply B'. intros x J. apply B; [reflexivity|]. now apply S.
    + assert (false = true); [|discriminate]. apply B. intros x J. apply B'; [reflexivity|]. now apply S.
  - destruct (collect_ok _ _ E) as [A _]. destruct (A Panic) as [X|X]; [|discriminate|discriminate]. apply S. auto.
  - destruct (collect_ok _ _ E') as [A _]. destruct (A Panic) as [X|X]; [|discriminate|discriminate]. apply S. auto.
  - reflexivity.
Qed.

(** * Validation of an unwrapped model *)

Section Verdict.
Variables (n : nat) (O : oracle) (R : raml) (s : st).

Definition pack (l : list (res unit)) (c : cache) : res (bool * cache) * st :=
  match collect l with Ok b => (Ok (b, c), s) | Err => (Err, s) | Panic => (Panic, s) | OutOfFuel => (OutOfFuel, s) end.

Definition outcome (a : addr) : res unit := fst (check_type n O a s).
Definition outcomes (f : fragment) : list (res unit) :=
  match f with
  | FLib l => match nth_error (r_libs R) l with
              | None => [Panic]
              | Some lib => map (fun x => outcome (snd x)) (l_annots lib) ++ map (fun x => outcome (snd x)) (l_types lib)
              end
  | FDT _ None => [Panic]
  | FDT _ (Some a) => [outcome a]
  | FNE => []
  end.
Definition outcomes_in (order : list string) : list (res unit) :=
  flat_map (fun k => match oget k (r_frags R) with None => [] | Some f => outcomes f end) order.

Lemma pack_seq (m : M (bool * cache)) (k : cache -> M (bool * cache)) l1 l2 c :
  m s = pack l1 c -> k c s = pack l2 c ->
  (r <- m ;; r' <- k (snd r) ;; ret (fst r && fst r', snd r'))%M s = pack (l1 ++ l2) c.
Proof.
  unfold pack, bind. intros -> K. rewrite collect_app. destruct (collect l1); try reflexivity. cbn [snd fst]. rewrite K.
  destruct (collect l2); reflexivity.
Qed.

Definition is_unwrapped (a : addr) : Prop := exists b, get_base (heap s) a = Some b /\ b_unwrapped b = true.

Lemma pack_type a c : is_unwrapped a -> validate_type n O a c s = pack [outcome a] c.
Proof.
  intros (b & G & U). unfold validate_type, val_unwrap, try, bind, rd. rewrite G, U. unfold ret, outcome, pack, check_type.
  destruct (check n O (heap s) a) as [[]| | |]; cbn; try reflexivity. destruct (commons n O (heap s) a) as [[]| | |]; reflexivity.
Qed.

Lemma pack_types c : forall l, (forall k a, In (k, a) l -> is_unwrapped a) -> validate_types n O l c s = pack (map (fun x => outcome (snd x)) l) c.
Proof.
  induction l as [|[k a] l IH]; intros U; cbn [validate_types]; [reflexivity|].
  apply (pack_seq _ _ [outcome a] (map (fun x => outcome (snd x)) l)).
  - apply pack_type. apply (U k). now left.
  - apply IH. intros k' a' J. apply (U k'). now right.
Qed.

Lemma pack_fragments c : forall order, (forall loc a, In loc order -> declared_in R loc a -> is_unwrapped a) ->
  validate_fragments n O R order c s = pack (outcomes_in order) c.
Proof.
  induction order as [|k order IH]; intros U; cbn [validate_fragments]; [reflexivity|].
  cbn [outcomes_in flat_map]. destruct (oget k (r_frags R)) as [f|] eqn:F.
  - apply (pack_seq _ _ (outcomes f) (outcomes_in order)); [|apply IH; intros loc a J; apply U; now right].
    destruct f as [l|uses [a|]|]; cbn [validate_fragment outcomes]; try reflexivity.
    + destruct (nth_error (r_libs R) l) as [lib|] eqn:N; [|reflexivity]. unfold validate_library. apply pack_seq; apply pack_types.
      * intros k' a J. apply (U k); [now left|]. eapply di_annot; eauto.
      * intros k' a J. apply (U k); [now left|]. eapply di_type; eauto.
    + apply pack_type. apply (U k); [now left|]. eapply di_data; eauto.
  - apply IH. intros loc a J. apply U. now right.
Qed.

Lemma verdict_same o o' : (forall loc a, In loc o -> declared_in R loc a -> is_unwrapped a) -> (forall k, In k o <-> In k o') ->
  fst (validate_shapes n O o R s) <> OutOfFuel -> fst (validate_shapes n O o' R s) <> OutOfFuel ->
  validate_shapes n O o R s = validate_shapes n O o' R s.
Proof.
  intros U S. assert (U' : forall loc a, In loc o' -> declared_in R loc a -> is_unwrapped a) by (intros loc a J; apply U; now apply S).
  assert (X : forall x, In x (outcomes_in o) <-> In x (outcomes_in o')).
  { intros x. unfold outcomes_in. rewrite !in_flat_map. split; intros (k & J & K); exists k; (split; [now apply S|exact K]). }
  unfold validate_shapes, bind. rewrite (pack_fragments [] o U), (pack_fragments [] o' U'). unfold pack.
  pose proof (collect_same _ _ X) as C.
  destruct (collect (outcomes_in o)) as [b| | |]; destruct (collect (outcomes_in o')) as [b'| | |]; cbn [fst]; intros F F';
    try (now exfalso; apply F); try (now exfalso; apply F'); (assert (C' := C ltac:(discriminate) ltac:(discriminate)); try discriminate C'; try injection C' as ->; reflexivity).
Qed.

(** A verdict, as opposed to a panic or no end, is never out of fuel in another order. *)
Lemma verdict_kept o o' : (forall loc a, In loc o -> declared_in R loc a -> is_unwrapped a) -> (forall k, In k o <-> In k o') ->
  fst (validate_shapes n O o R s) = Ok tt \/ fst (validate_shapes n O o R s) = Err ->
  validate_shapes n O o' R s = validate_shapes n O o R s.
Proof.
  intros U S V. assert (U' : forall loc a, In loc o' -> declared_in R loc a -> is_unwrapped a) by (intros loc a J; apply U; now apply S).
  assert (F : fst (validate_shapes n O o R s) <> OutOfFuel) by (destruct V as [-> | ->]; discriminate).
  symmetry. apply verdict_same; auto. intros F'.
  unfold validate_shapes, bind in V, F'. rewrite (pack_fragments [] o U) in V. rewrite (pack_fragments [] o' U') in F'. unfold pack in *.
  destruct (collect (outcomes_in o)) as [b| | |] eqn:E; try (now destruct V); [|destruct (collect_not (outcomes_in o)) as (N & _); congruence].
  destruct (collect_ok _ _ E) as [A _]. destruct (collect_not (outcomes_in o')) as (N' & Np & Nf).
  assert (K : forall x, In x (outcomes_in o') -> In x (outcomes_in o)).
  { intros x. unfold outcomes_in. rewrite !in_flat_map. intros (k & J & J'). exists k. split; [now apply S|exact J']. }
  destruct (collect (outcomes_in o')) as [b'| | |]; try discriminate.
  - cbn [snd fst] in V, F'. destruct (validate_exts n O (r_exts R) [] s) as [[ok| | |] s1]; cbn in V, F'; try discriminate; try (now destruct V).
    destruct (b' && ok); discriminate.
  - destruct (A OutOfFuel (K _ (Nf eq_refl))); discriminate.
Qed.
End Verdict.

(** * C76 *)

(** The fragments are enumerated in the order of a Go map. In an unwrapped
    model, the verdict of ValidateShapes is the same in all orders, and the
    model is left as it is. *)
Theorem C76_verdict : forall n O R s o o',
  (forall loc a, In loc o -> declared_in R loc a -> exists b, get_base (heap s) a = Some b /\ b_unwrapped b = true) ->
  (forall k, In k o <-> In k o') ->
  fst (validate_shapes n O o R s) = Ok tt \/ fst (validate_shapes n O o R s) = Err ->
  validate_shapes n O o' R s = validate_shapes n O o R s.
Proof. exact verdict_kept. Qed.
Print Assumptions C76_verdict.

(** So is a panic, unless validation does not end. *)
Theorem C76_panic : forall n O R s o o',
  (forall loc a, In loc o -> declared_in R loc a -> exists b, get_base (heap s) a = Some b /\ b_unwrapped b = true) ->
  (forall k, In k o <-> In k o') ->
  fst (validate_shapes n O o R s) <> OutOfFuel -> fst (validate_shapes n O o' R s) <> OutOfFuel ->
  validate_shapes n O o R s = validate_shapes n O o' R s.
Proof. exact verdict_same. Qed.
Print Assumptions C76_panic.

(** UnwrapShapes leaves an unwrapped model, for all files. *)
Lemma model_unwrapped m q1 q2 R s R' s' : unwrap_shapes m q1 q2 R s = (Ok R', s') ->
  forall loc a, In loc q2 -> declared_in R' loc a -> exists b, get_base (heap s') a = Some b /\ b_unwrapped b = true.
Proof.
  intros U loc a J D. destruct (unwrap_split _ _ _ _ _ _ _ U) as (u & s1 & E1 & Ok1 & E2 & El & Ef). rewrite <- El, <- Ef in E2.
  destruct (mark_fragments_all m R' q2 s1 s' E2) as (l & E3 & In3). exact (marked_unwrapped _ _ _ _ _ E3 (In3 _ _ J D)).
Qed.

Theorem C76_unwrapped : forall m q1 q2 R s R' s' n O o o',
  unwrap_shapes m q1 q2 R s = (Ok R', s') -> (forall k, In k o -> In k q2) -> (forall k, In k o <-> In k o') ->
  fst (validate_shapes n O o R' s') = Ok tt \/ fst (validate_shapes n O o R' s') = Err ->
  validate_shapes n O o' R' s' = validate_shapes n O o R' s'.
Proof.
  intros m q1 q2 R s R' s' n O o o' U I S V. apply verdict_kept; auto. intros loc a J D. exact (model_unwrapped _ _ _ _ _ _ _ U loc a (I _ J) D).
Qed.
Print Assumptions C76_unwrapped.

(** Parsing with unwrapping and validation: the order of the validation does
    not matter, for all files. *)
Theorem C76_parsed : forall E n O o1 o2 o o' text path,
  (forall k, In k o -> In k o2) -> (forall k, In k o <-> In k o') ->
  (exists ep, fst (parse_string E n O o1 o2 o true true text path) = Ok ep) \/ fst (parse_string E n O o1 o2 o true true text path) = Err ->
  parse_string E n O o1 o2 o' true true text path = parse_string E n O o1 o2 o true true text path.
Proof.
  intros E n O o1 o2 o o' text path I S V. unfold parse_string, parse_fragment, dbind in *.
  destruct (decode_fragment E n text path new_raml) as [[ep| | |] p1]; try reflexivity.
  destruct (resolve_fragment E n p1) as [[[]| | |] p2]; try reflexivity.
  destruct (unwrap_shapes n o1 o2 (raml_of p2) (p_st p2)) as [[R| | |] s1] eqn:U; try reflexivity.
  cbn [p_st raml_of with_raml] in *. rewrite (verdict_kept n O _ s1 o o'); [reflexivity| |exact S|].
  - intros loc a J D. apply (model_unwrapped _ _ _ _ _ _ _ U loc a (I _ J)). destruct R. exact D.
  - destruct (validate_shapes n O o _ s1) as [[[]| | |] s2]; cbn in *; auto; destruct V as [(x & V)|V]; discriminate.
Qed.
Print Assumptions C76_parsed.

(** The files of C61 in two orders; and files with an error. *)
Definition d76 : disk :=
  [("a.raml", lib_head, mp [("uses", mp [("b", sc "b.raml")]); ("types", mp [("T", mp [("type", sc "b.S"); ("example", sc "x")])])]);
   ("b.raml", lib_head, mp [("types", mp [("S", mp [("type", sc "string"); ("enum", sq [sc "y"])])])])].
Definition run76 (d : disk) (o : list string) : res entry_point :=
  let o1 := map (fun x => fst (fst x)) d in
  match e_read (d_y (on_disk d)) "a.raml" with
  | Some text => fst (parse_string (on_disk d) 40 exO o1 o1 o true true text "a.raml")
  | None => Panic
  end.
Example C76_case : run76 d61 ["a.raml"; "b.raml"; "c.raml"; "t.raml"] = Ok (ELib 1)
  /\ run76 d61 ["t.raml"; "c.raml"; "a.raml"; "b.raml"] = Ok (ELib 1)
  /\ run76 d76 ["a.raml"; "b.raml"] = Err /\ run76 d76 ["b.raml"; "a.raml"] = Err.
Proof. vm_compute. repeat split. Qed.

(** * C52 *)

(** What the order of UnwrapShapes does not change, in a document without
    unions and without types of the kind any: which types the libraries and
    files have and under which names, what looking them up gives, and the ID,
    name and location of every type. *)
Theorem C52_parsed_partial : forall E n O o1 o2 o3 text path ep p m m' q1 q2 q1' q2' R s R' s',
  parse_string E n O o1 o2 o3 false false text path = (Ok ep, p) -> union_free (heap (p_st p)) -> any_free (heap (p_st p)) ->
  unwrap_shapes m q1 q2 (raml_of p) (p_st p) = (Ok R, s) -> unwrap_shapes m' q1' q2' (raml_of p) (p_st p) = (Ok R', s') ->
  NoDup q1 -> NoDup q1' -> (forall k, In k q1 <-> In k q1') ->
  r_libs R' = r_libs R /\ r_frags R' = r_frags R
  /\ (forall loc l lib k, In loc q1 -> oget loc (r_frags R) = Some (FLib l) -> nth_error (r_libs R) l = Some lib ->
        ((exists a, has_type lib k a) -> index_get loc k (r_types R') = index_get loc k (r_types R))
        /\ ((exists a, has_annot lib k a) -> index_get loc k (r_annots R') = index_get loc k (r_annots R)))
  /\ (forall a b, get_base (heap (p_st p)) a = Some b -> exists b1 b2, get_base (heap s) a = Some b1 /\ get_base (heap s') a = Some b2
        /\ b_id b1 = b_id b2 /\ b_name b1 = b_name b2 /\ b_loc b1 = b_loc b2).
Proof.
  intros E n O o1 o2 o3 text path ep p m m' q1 q2 q1' q2' R s R' s' P Un An U U' N N' S.
  destruct (C27_parsed_partial _ _ _ _ _ _ _ _ _ _ _ _ _ _ _ P Un An U) as [L F]. destruct (C27_parsed_partial _ _ _ _ _ _ _ _ _ _ _ _ _ _ _ P Un An U') as [L' F'].
  split; [congruence|]. split; [congruence|]. split.
  - intros loc l lib k J Fl Nl.
    destruct (C53_parsed_partial _ _ _ _ _ _ _ _ _ _ _ _ _ _ _ _ _ _ P Un An U N J Fl Nl) as [T A].
    rewrite F, <- F' in Fl. rewrite L, <- L' in Nl.
    destruct (C53_parsed_partial _ _ _ _ _ _ _ _ _ _ _ _ _ _ _ _ _ _ P Un An U' N' (proj1 (S loc) J) Fl Nl) as [T' A'].
    split; intros (a & K); [rewrite (T _ _ K), (T' _ _ K)|rewrite (A _ _ K), (A' _ _ K)]; reflexivity.
  - assert (Lb : forall m q1 q2 R s, unwrap_shapes m q1 q2 (raml_of p) (p_st p) = (Ok R, s) -> labels (p_st p) s).
    { clear. intros m q1 q2 R s U. destruct (unwrap_shapes_inv _ _ _ _ _ _ _ U) as (u & s1 & E1 & _ & B & _). destruct (unwrap_fragments_other _ _ _ _ _ _ E1) as (B1 & _).
      refine (labels_trans _ s1 _ _ B). intros x c Hc. exact (B1 x c Hc). }
    intros a b G. destruct (labels_base _ _ _ _ (Lb _ _ _ _ _ U) G) as (b1 & G1 & I1 & N1 & L1).
    destruct (labels_base _ _ _ _ (Lb _ _ _ _ _ U') G) as (b2 & G2 & I2 & N2 & L2). exists b1, b2. repeat split; congruence.
Qed.
Print Assumptions C52_parsed_partial.

(** The files of [d76] unwrapped in both orders. *)
Definition two76 (p : pst) (q : list string) : bool := Props_Back.good (unwrap_shapes 40 q q (raml_of p) (p_st p)).
Lemma two_ok p q : two76 p q = true -> exists R s, unwrap_shapes 40 q q (raml_of p) (p_st p) = (Ok R, s).
Proof. unfold two76, Props_Back.good. destruct (unwrap_shapes 40 q q (raml_of p) (p_st p)) as [[R| | |] s]; try discriminate. intros _. now exists R, s. Qed.
Lemma two_at d p q : p = snd (parse1 d 40 false false) -> two76 (snd (parse1 d 40 false false)) q = true ->
  exists R s, unwrap_shapes 40 q q (raml_of p) (p_st p) = (Ok R, s).
Proof. intros -> H. exact (two_ok _ _ H). Qed.
Example C52_parsed_case : exists ep p R s R' s', parse1 d76 40 false false = (Ok ep, p) /\ union_free (heap (p_st p)) /\ any_free (heap (p_st p))
  /\ unwrap_shapes 40 ["a.raml"; "b.raml"] ["a.raml"; "b.raml"] (raml_of p) (p_st p) = (Ok R, s)
  /\ unwrap_shapes 40 ["b.raml"; "a.raml"] ["b.raml"; "a.raml"] (raml_of p) (p_st p) = (Ok R', s') /\ r_libs R' = r_libs R.
Proof.
  assert (G1 : exists ep p, parse1 d76 40 false false = (Ok ep, p) /\ p = snd (parse1 d76 40 false false)).
  { assert (G : match fst (parse1 d76 40 false false) with Ok _ => true | _ => false end = true) by (vm_compute; reflexivity).
    destruct (parse1 d76 40 false false) as [[ep| | |] p]; try discriminate G. now exists ep, p. }
  destruct G1 as (ep & p & P & Ep).
  assert (Un : union_free (heap (p_st p))) by (apply (union_at d76 p Ep); vm_compute; reflexivity).
  assert (An : any_free (heap (p_st p))) by (apply (any_at d76 p Ep); vm_compute; reflexivity).
  assert (U : exists R s, unwrap_shapes 40 ["a.raml"; "b.raml"] ["a.raml"; "b.raml"] (raml_of p) (p_st p) = (Ok R, s)) by (apply (two_at d76 p _ Ep); vm_compute; reflexivity).
  assert (U' : exists R s, unwrap_shapes 40 ["b.raml"; "a.raml"] ["b.raml"; "a.raml"] (raml_of p) (p_st p) = (Ok R, s)) by (apply (two_at d76 p _ Ep); vm_compute; reflexivity).
  clear Ep. destruct U as (R & s & U). destruct U' as (R' & s' & U'). exists ep, p, R, s, R', s'.
  split; [exact P|]. split; [exact Un|]. split; [exact An|]. split; [exact U|]. split; [exact U'|].
  destruct (found1 _ _ _ _ _ _ _ _ _ P Un An U) as (A & _). { repeat constructor; intros [|[]] || intros []; discriminate. }
  destruct (found1 _ _ _ _ _ _ _ _ _ P Un An U') as (A' & _). { repeat constructor; intros [|[]] || intros []; discriminate. }
  congruence.
Qed.
