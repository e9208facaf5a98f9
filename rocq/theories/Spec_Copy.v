(** Specification of copies of JSON Schema documents: which tree a pointer
    stands for, and which cells it consists of. *)
From Coq Require Import ZArith List String Bool.
From Verif Require Import Base Heap Schema Copy.
Import ListNotations.
Open Scope list_scope.
Open Scope nat_scope.

(** * The tree at a pointer *)

Definition obind {A B} (o : option A) (f : A -> option B) : option B :=
  match o with Some x => f x | None => None end.
Definition cell_as {A} (f : dcell -> option A) (h : list dcell) (a : addr) : option A := obind (nth_error h a) f.

(** A nilable container. *)
Definition container {A} (f : dcell -> option (list A)) (h : list dcell) (p : option addr) : option (option (list A)) :=
  match p with None => Some None | Some a => option_map Some (cell_as f h a) end.
Definition flat {A} (o : option (list A)) : list A := match o with Some l => l | None => [] end.

Fixpoint all_some {A B} (f : A -> option B) (l : list A) : option (list B) :=
  match l with
  | [] => Some []
  | x :: l' => obind (f x) (fun y => option_map (cons y) (all_some f l'))
  end.
(** The trees of the entries of a container. *)
Definition trees {A B} (f : A -> option B) (o : option (option (list A))) : option (option (list B)) :=
  match o with
  | None => None
  | Some None => Some None
  | Some (Some l) => option_map Some (all_some f l)
  end.
Definition keyed {A B} (f : A -> option B) (kx : string * A) : option (string * B) :=
  option_map (pair (fst kx)) (f (snd kx)).

Definition with_lists (k : kw) (req : list string) (ex : list gval) (en : option (list gval)) : kw :=
  Kw (k_version k) (k_id k) (k_ref k) (k_comment k) (k_addl k) (k_type k) en (k_const k) (k_mult k)
    (k_max k) (k_min k) (k_maxlen k) (k_minlen k) (k_pattern k) (k_maxitems k) (k_minitems k)
    (k_uniq k) (k_maxcont k) (k_mincont k) (k_maxprops k) (k_minprops k) req (k_enc k)
    (k_media k) (k_format k) (k_title k) (k_desc k) (k_default k) ex.

(** The schema at [p], when it is a finite tree of depth at most [n]. *)
Fixpoint tree (n : nat) (h : list dcell) (p : option addr) : option schema :=
  match p with
  | None => Some Null
  | Some a =>
      match n with
      | O => None
      | S n' =>
          let t := tree n' h in
          obind (cell_as as_node h a) (fun N =>
          obind (container as_strs h (d_req N)) (fun req =>
          obind (container as_vals h (d_ex N)) (fun ex =>
          obind (container as_vals h (d_enum N)) (fun en =>
          obind (trees t (container as_subs h (d_any N))) (fun an =>
          obind (trees t (container as_subs h (d_all N))) (fun al =>
          obind (trees t (container as_subs h (d_one N))) (fun on =>
          obind (t (d_not N)) (fun nt =>
          obind (t (d_if N)) (fun it =>
          obind (t (d_then N)) (fun th =>
          obind (t (d_else N)) (fun el =>
          obind (t (d_items N)) (fun its =>
          obind (t (d_pnames N)) (fun pn =>
          obind (trees (keyed t) (container as_map h (d_props N))) (fun ps =>
          obind (trees (keyed t) (container as_map h (d_pprops N))) (fun pps =>
          obind (trees (keyed t) (container as_map h (d_defs N))) (fun df =>
          obind (container as_data h (d_ann N)) (fun ann =>
          obind (trees (keyed t) (container as_map h (d_fdefs N))) (fun fd =>
          obind (container as_data h (d_fdata N)) (fun fx =>
          Some (Sch (with_lists (d_kw N) (flat req) (flat ex) en) (flat df) (flat al) (flat an) (flat on)
                  nt it th el its ps pps pn ann fd fx))))))))))))))))))))
      end
  end.

(** [p] stands for the schema [s]. *)
Definition stands_for (h : list dcell) (p : option addr) (s : schema) : Prop := exists n, tree n h p = Some s.

(** * The cells of a document *)

(** The slices and maps of a node. *)
Definition containers (N : dnode) : list (option addr) :=
  [d_req N; d_ex N; d_enum N; d_any N; d_all N; d_one N; d_props N; d_pprops N; d_defs N; d_ann N; d_fdefs N; d_fdata N].
(** The pointers to nodes in a node. *)
Definition pointers (h : list dcell) (p : option addr) : list (option addr) :=
  match p with
  | None => []
  | Some a => match nth_error h a with Some (DSubs l) => l | Some (DMap l) => map snd l | _ => [] end
  end.
Definition subnodes (h : list dcell) (N : dnode) : list (option addr) :=
  [d_not N; d_if N; d_then N; d_else N; d_items N; d_pnames N]
  ++ flat_map (pointers h) [d_any N; d_all N; d_one N; d_props N; d_pprops N; d_defs N; d_fdefs N].

Inductive made_of (h : list dcell) : option addr -> addr -> Prop :=
| mo_node a : made_of h (Some a) a
| mo_part a N x : nth_error h a = Some (DNode N) -> In (Some x) (containers N) -> made_of h (Some a) x
| mo_sub a N p x : nth_error h a = Some (DNode N) -> In p (subnodes h N) -> made_of h p x -> made_of h (Some a) x.

(** A slice or map without entries. *)
Definition empty_container (c : dcell) : Prop :=
  c = DStrs [] \/ c = DVals [] \/ c = DSubs [] \/ c = DMap [] \/ c = DData [].

(** Writing to a cell. *)
Fixpoint write (h : list dcell) (x : addr) (c : dcell) : list dcell :=
  match h, x with
  | [], _ => []
  | _ :: h', O => c :: h'
  | d :: h', S x' => d :: write h' x' c
  end.
