(** * What refinement and coarsening should do *)

From Coq Require Import ZArith List Bool Lia Arith.
From Verif Require Import Quad Adapt.
Import ListNotations.
Open Scope Z_scope.

(** thread the state through a list and concatenate the results *)
Fixpoint walk {St A B : Type} (f : St -> A -> St * list B) (s : St) (l : list A) : St * list B :=
  match l with
  | [] => (s, [])
  | x :: l' => let (s1, o1) := f s x in
               let (s2, o2) := walk f s1 l' in (s2, o1 ++ o2)
  end.

(** number of leaves of a level, highest level *)
Definition nlev {D} (i : Z) (l : list (leaf D)) : Z :=
  Z.of_nat (length (filter (fun lf => ql (fst lf) =? i) l)).
Definition maxlev {D} (l : list (leaf D)) : Z := fold_right (fun lf m => Z.max (ql (fst lf)) m) 0 l.

(** ** Recursive refinement of one leaf

    The callback is asked about the leaf (unless the leaf was created in this
    call and refinement is not recursive); if it says yes and the level is
    below the allowed maximum, the leaf is replaced by its children with
    initialised data, which are visited in turn.  [n] bounds the number of levels. *)
Section RefineSpec.
  Variable d : dim.
  Variables (St D : Type).
  Variable refine_fn : St -> Z -> quad -> D -> St * D * bool.
  Variable init_fn : St -> Z -> quad -> St * D.
  Variable replace_fn : option (St -> Z -> leaf D -> list (leaf D) -> St * list D).
  Variable recursive : bool.
  Variable allowed : Z.
  Variable nt : Z.

  (** the children in order, data set by init_fn and possibly by replace_fn *)
  Definition make_children (s : St) (lf : leaf D) : St * list (leaf D) :=
    let (s1, ch) := walk (fun s q => let (s', v) := init_fn s nt q in (s', [(q, v)])) s
                      (map (fun i => child d (fst lf) (Z.of_nat i)) (seq 0 (childrenn d))) in
    match replace_fn with
    | None => (s1, ch)
    | Some f => let (s2, ds) := f s1 nt lf ch in (s2, rezip D ch ds)
    end.

  Fixpoint visit (n : nat) (created : bool) (s : St) (lf : leaf D) : St * list (leaf D) :=
    if created && negb recursive then (s, [lf])
    else
      let '(s1, v, yes) := refine_fn s nt (fst lf) (snd lf) in
      if yes && (ql (fst lf) <? allowed) then
        match n with
        | O => (s1, [])
        | S n' => let (s2, ch) := make_children s1 (fst lf, v) in walk (visit n' true) s2 ch
        end
      else (s1, [(fst lf, v)]).
End RefineSpec.

(** ** Coarsening seen as operations on the list of leaves

    [w] is the position that is looked at.  There is neither an array nor a
    hole here; CoarsenLemmas.v shows that the array algorithm does the same. *)
Section CoarsenSpec.
  Variable d : dim.
  Variables (St D : Type).
  Variable init_fn : St -> Z -> quad -> St * D.
  Variable coarsen_fn : St -> Z -> list (leaf D) -> St * list D * bool.
  Variable replace_fn : option (St -> Z -> list (leaf D) -> leaf D -> St * D).
  Variables (recursive orphans : bool).
  Variable jt : Z.

  (** child ids are 0, 1, ... *)
  Fixpoint ids_from (i : Z) (l : list (leaf D)) : bool :=
    match l with
    | [] => true
    | lf :: l' => (i =? child_id d (fst lf)) && ids_from (i + 1) l'
    end.

  (** the new leaf that replaces a family *)
  Definition make_parent (s : St) (fam : list (leaf D)) (c0 : leaf D) : St * leaf D :=
    let par := parent d (fst c0) in
    let (s1, v) := init_fn s jt par in
    match replace_fn with
    | None => (s1, (par, v))
    | Some f => let (s2, v2) := f s1 jt fam (par, v) in (s2, (par, v2))
    end.

  Definition abs_step (s : St) (L : list (leaf D)) (w : nat) : St * list (leaf D) * nat :=
    let fam := firstn (childrenn d) (skipn w L) in
    match fam with
    | [] => (s, L, (w + 1)%nat)
    | c0 :: _ =>
      if ids_from 0 fam then
        let '(s1, ds, yes) := coarsen_fn s jt fam in
        let fam' := rezip D fam ds in
        if yes then
          let (s2, pv) := make_parent s1 fam' c0 in
          (s2, firstn w L ++ pv :: skipn (w + childrenn d) L,
           let cidz := Z.to_nat (child_id d (fst pv)) in
           if Nat.leb cidz w && recursive then (w - cidz)%nat else (w + 1)%nat)
        else (s1, firstn w L ++ fam' ++ skipn (w + childrenn d) L, (w + 1)%nat)
      else if orphans then
        let '(s1, ds, _) := coarsen_fn s jt [c0] in
        (s1, firstn w L ++ rezip D [c0] ds ++ skipn (w + 1) L, (w + 1)%nat)
      else (s, L, (w + 1)%nat)
    end.

  Fixpoint abs_loop (fuel : nat) (s : St) (L : list (leaf D)) (w : nat) : option (St * list (leaf D) * nat) :=
    if Nat.leb (w + childrenn d) (length L) then
      match fuel with
      | O => None
      | S fuel' => let '(s, L, w) := abs_step s L w in abs_loop fuel' s L w
      end
    else Some (s, L, w).

  Definition ask_orphan (s : St) (lf : leaf D) : St * list (leaf D) :=
    let '(s1, ds, _) := coarsen_fn s jt [lf] in (s1, rezip D [lf] ds).

  Definition abs_coarsen (fuel : nat) (s : St) (L : list (leaf D)) : option (St * list (leaf D)) :=
    match abs_loop fuel s L 0 with
    | None => None
    | Some (s, L, w) =>
      if orphans then let (s', l) := walk ask_orphan s (skipn w L) in Some (s', firstn w L ++ l)
      else Some (s, L)
    end.
End CoarsenSpec.

(** ** Nonrecursive coarsening: one pass from left to right

    If the next 2^d leaves are the children of one quadrant, in order, the
    callback is asked about them.  If it agrees they are replaced by the parent,
    which is not looked at again.  Otherwise the first leaf stays.  A first leaf
    that does not begin a family is presented alone, if wanted. *)
Section OnePass.
  Variable d : dim.
  Variables (St D : Type).
  Variable init_fn : St -> Z -> quad -> St * D.
  Variable coarsen_fn : St -> Z -> list (leaf D) -> St * list D * bool.
  Variable replace_fn : option (St -> Z -> list (leaf D) -> leaf D -> St * D).
  Variable orphans : bool.
  Variable jt : Z.

  Definition quad_eq_dec (q r : quad) : {q = r} + {q <> r}.
  Proof. decide equality; apply Z.eq_dec. Defined.

  (** the quadrants are the children, in order, of the parent of q0 *)
  Definition familyb (q0 : quad) (l : list quad) : bool :=
    (0 <? ql q0) && (if list_eq_dec quad_eq_dec l (childrenv d (parent d q0)) then true else false).

  Fixpoint one_pass (n : nat) (s : St) (l : list (leaf D)) : St * list (leaf D) :=
    match n, l with
    | S n', c0 :: l' =>
      let fam := firstn (childrenn d) l in
      if familyb (fst c0) (map fst fam) then
        let '(s1, ds, yes) := coarsen_fn s jt fam in
        let fam' := rezip D fam ds in
        if yes then
          let (s2, pv) := make_parent d St D init_fn replace_fn jt s1 fam' c0 in
          let (s3, r) := one_pass n' s2 (skipn (childrenn d) l) in (s3, pv :: r)
        else
          match fam' ++ skipn (childrenn d) l with
          | c0' :: l'' => let (s3, r) := one_pass n' s1 l'' in (s3, c0' :: r)
          | [] => (s1, [])
          end
      else if orphans then
        let (s1, o) := ask_orphan St D coarsen_fn jt s c0 in
        let (s3, r) := one_pass n' s1 l' in (s3, o ++ r)
      else let (s3, r) := one_pass n' s l' in (s3, c0 :: r)
    | _, _ => (s, [])
    end.
End OnePass.
