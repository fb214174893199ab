(** * What p4est_search_reorder visits *)

From Coq Require Import ZArith List Bool Lia Arith Sorting.Sorted ZifyBool.
From Verif Require Import Quad Spec Search SearchLemmas SearchLocal Reorder.
Import ListNotations.
Open Scope Z_scope.

(** one call of a callback: tree, quadrant, local number (and point), or the quadrants with
    their trees and the indices *)
Inductive rcall (Pt : Type) :=
| Pre (tree : Z) (q : quad) (num : Z)
| Point (tree : Z) (q : quad) (num : Z) (p : Pt)
| Order (qs : list (Z * quad)) (idx : list Z)
| Post (tree : Z) (q : quad) (num : Z).
Arguments Pre {Pt}.
Arguments Point {Pt}.
Arguments Order {Pt}.
Arguments Post {Pt}.

(** the callbacks append to a log and answer by functions of their arguments *)
Definition log_rrec {Pt} (skip : bool) (ord : option (list (Z * quad) -> list Z -> list Z * bool))
    (P : Z -> quad -> Z -> bool) (PP : Z -> quad -> Z -> Pt -> bool) (pts : option (list Pt)) : rrec (list (rcall Pt)) Pt :=
  mkrrec skip (option_map (fun K s qs idx => (s ++ [Order qs idx], fst (K qs idx), snd (K qs idx))) ord)
    (Some (fun s t q n => (s ++ [Pre t q n], P t q n))) (Some (fun s t q n => s ++ [Post t q n]))
    (Some (fun s t q n p => (s ++ [Point t q n p], PP t q n p))) pts.

(** the order callback permutes the indices or a part of them *)
Definition order_ok (ord : option (list (Z * quad) -> list Z -> list Z * bool)) : Prop :=
  forall K qs idx, ord = Some K -> NoDup idx -> NoDup (fst (K qs idx)) /\ incl (fst (K qs idx)) idx.

Section Tree.
  Variable d : dim.
  Variable Pt : Type.
  Variable skip : bool.
  Variable ord : option (list (Z * quad) -> list Z -> list Z * bool).
  Variable P : Z -> quad -> Z -> bool.
  Variable PP : Z -> quad -> Z -> Pt -> bool.
  Variables (t off : Z) (L : list quad).   (* the tree, its offset, its leaves *)

  (** the number of a leaf, -1 for another quadrant *)
  Definition quad_dec (q r : quad) : {q = r} + {q <> r}.
  Proof. decide equality; apply Z.eq_dec. Defined.
  Fixpoint index_of (q : quad) (l : list quad) : option nat :=
    match l with
    | [] => None
    | x :: l' => if quad_dec q x then Some 0%nat else option_map S (index_of q l')
    end.
  Definition numof (q : quad) : Z := match index_of q L with Some k => off + Z.of_nat k | None => -1 end.

  (** the quadrants to search: all that contain a leaf; with skip, the leaves and those with
      leaves in two of their children *)
  Definition snode (q : quad) : Prop :=
    wf d q /\ (exists x, In x L /\ within d q x) /\ (skip = true -> In q L \/ branch d L q).

  (** the children of m that contain leaves *)
  Definition kids (m : quad) : list Z :=
    filter (fun i => existsb (withinb d (child d m i)) L) (map Z.of_nat (seq 0 (childrenn d))).
  Definition siblings (m : quad) : list (Z * quad) := map (fun i => (t, child d m (Z.of_nat i))) (seq 0 (childrenn d)).
  Definition many (m : quad) : Prop := exists x y, In x L /\ In y L /\ x <> y /\ within d m x /\ within d m y.

  (** the order callback at m goes on with the child of m that contains q; it is not called for
      a single leaf *)
  Definition kept (m q : quad) : Prop := many m -> forall K, ord = Some K ->
    snd (K (siblings m) (kids m)) = true /\ exists i, In i (fst (K (siblings m) (kids m))) /\ within d (child d m i) q.

  (** [b] restricts to the quadrants inside b *)
  Definition active (b q : quad) (p : Pt) : Prop :=
    forall m, snode m -> within d b m -> within d m q -> m <> q -> PP t m (numof m) p = true.
  Definition passed (b q : quad) : Prop :=
    forall m, snode m -> within d b m -> within d m q -> m <> q -> P t m (numof m) = true /\ kept m q.
  Definition called (b : quad) (ps : option (list Pt)) (q : quad) : Prop :=
    snode q /\ within d b q /\ passed b q /\ forall l, ps = Some l -> exists p, In p l /\ active b q p.

  (** the calls for a quadrant q *)
  Definition atq (q : quad) (e : rcall Pt) : bool :=
    match e with
    | Pre _ r _ | Point _ r _ _ | Post _ r _ => if quad_dec q r then true else false
    | Order _ _ => false
    end.
  Definition calls (q : quad) (l : list Pt) : list (rcall Pt) :=
    Pre t q (numof q) :: if P t q (numof q) then map (Point t q (numof q)) l ++ [Post t q (numof q)] else [].
  Definition calls_are (b : quad) (ps : option (list Pt)) (q : quad) (T : list (rcall Pt)) : Prop :=
    (called b ps q -> exists l, filter (atq q) T = calls q l /\
       match ps with None => l = [] | Some l0 => exists f, l = filter f l0 /\ forall p, In p l0 -> (f p = true <-> active b q p) end) /\
    forall e, In e T -> atq q e = true -> called b ps q.

  (** the order of the calls: all about the inside of a quadrant comes between the first and the
      last call for it, one child after the other as told by the order callback *)
  Definition ev_in (q : quad) (e : rcall Pt) : Prop :=
    match e with
    | Pre t' r _ | Point t' r _ _ | Post t' r _ => t' = t /\ within d q r
    | Order qs _ => Forall (fun c => fst c = t /\ within d q (snd c)) qs
    end.
  Inductive nested : list (rcall Pt) -> Prop :=
  | nested_nil : nested []
  | nested_no q n : P t q n = false -> nested [Pre t q n]
  | nested_yes q n l T : P t q n = true -> below q T -> nested (Pre t q n :: map (Point t q n) l ++ T ++ [Post t q n])
  with below : quad -> list (rcall Pt) -> Prop :=
  | below_none q : below q []
  | below_one q i T : ~ many q -> nested T -> Forall (ev_in (child d q i)) T -> below q T
  | below_all q Ts : ord = None -> Forall2 (fun i T => nested T /\ Forall (ev_in (child d q i)) T) (kids q) Ts -> below q (concat Ts)
  | below_order q K Ts : ord = Some K ->
      Forall2 (fun i T => nested T /\ Forall (ev_in (child d q i)) T) (if snd (K (siblings q) (kids q)) then fst (K (siblings q) (kids q)) else []) Ts ->
      below q (Order (siblings q) (kids q) :: concat Ts).
End Tree.
