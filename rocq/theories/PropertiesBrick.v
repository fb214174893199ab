(** * C70: p4est_connectivity_new_brick builds the box lattice that was asked for *)

From Coq Require Import ZArith List Bool Lia ZifyBool.
From Verif Require Import Quad Spec Neighbor Transform Partition Conn ConnLemmas ConnBounds Permute PermuteArray Brick BrickBits BrickNumber BrickWrite BrickVertex BrickValid.
Import ListNotations.
Open Scope Z_scope.

(** ** The lattice *)

(** The box of m * n * p unit cubes; a cube has the coordinates of its lowest corner. *)
Definition in_lattice (m n p : Z) (x : Z * Z * Z) : Prop :=
  let '(a, b, c) := x in 0 <= a < m /\ 0 <= b < n /\ 0 <= c < p.
(** one step in one direction: out of the box, or around it *)
Definition advance (size : Z) (periodic : bool) (a o : Z) : option Z :=
  if (0 <=? a + o) && (a + o <? size) then Some (a + o) else if periodic then Some ((a + o) mod size) else None.
Definition shift (m n p : Z) (pa pb pc : bool) (x o : Z * Z * Z) : option (Z * Z * Z) :=
  let '(a, b, c) := x in let '(u, v, w) := o in
  match advance m pa a u, advance n pb b v, advance p pc c w with
  | Some a', Some b', Some c' => Some (a', b', c')
  | _, _, _ => None
  end.
Definition plus (x y : Z * Z * Z) : Z * Z * Z := let '(a, b, c) := x in let '(u, v, w) := y in (a + u, b + v, c + w).
Definition minus (x y : Z * Z * Z) : Z * Z * Z := let '(a, b, c) := x in let '(u, v, w) := y in (a - u, b - v, c - w).
(** the position of a corner, and of the lower end of an edge, in the unit cube *)
Definition corner_pos (i : Z) : Z * Z * Z := (i mod 2, i / 2 mod 2, i / 4 mod 2).
Definition edge_pos (e : Z) : Z * Z * Z :=
  let lo := e mod 2 in let hi := e / 2 mod 2 in
  if e / 4 =? 0 then (0, lo, hi) else if e / 4 =? 1 then (lo, 0, hi) else (lo, hi, 0).
(** the normal of a face *)
Definition normal (f : Z) : Z * Z * Z :=
  let s := if f mod 2 =? 0 then -1 else 1 in
  if f / 2 =? 0 then (s, 0, 0) else if f / 2 =? 1 then (0, s, 0) else (0, 0, s).
Definition opposite (f : Z) : Z := if f mod 2 =? 0 then f + 1 else f - 1.

Section Spec.
  Variables (d : dim) (dbl : Z -> Z) (m n p : Z) (pa pb pc : bool) (c : conn) (tree : Z * Z * Z -> Z).
  Let pz : Z := if is3 d then p else 1.
  Local Notation nb x o := (shift m n pz pa pb pc x o).
  Local Notation inside x := (in_lattice m n pz x).

  (** the trees are numbered without gaps, and the number increases in every direction *)
  Definition numbering : Prop :=
    (forall x, inside x -> 0 <= tree x < c_nt c) /\
    (forall x y, inside x -> inside y -> tree x = tree y -> x = y) /\
    (forall t, 0 <= t < c_nt c -> exists x, inside x /\ tree x = t) /\
    (forall a b k a' b' k', inside (a, b, k) -> inside (a', b', k') -> a <= a' -> b <= b' -> k <= k' -> tree (a, b, k) <= tree (a', b', k')).
  Definition counts : Prop :=
    let less (q : bool) s := if q then s else s - 1 in
    c_nt c = m * n * pz /\
    c_nv c = (m + 1) * (n + 1) * (if is3 d then p + 1 else 1) /\
    c_nc c = less pa m * less pb n * (if is3 d then less pc p else 1) /\
    c_ne c = (if is3 d then m * less pb n * less pc p + less pa m * n * less pc p + less pa m * less pb n * p else 0) /\
    c_attr c = 0.
  (** across a face is the next cube, without any rotation, or the boundary of the domain *)
  Definition face_neighbors : Prop :=
    forall x f, inside x -> 0 <= f < faces d ->
      find_face_transform d c (tree x) f =
        Some (match nb x (normal f) with Some y => Some (tree y, expand_face_transform d f (opposite f) 0) | None => None end).
  (** a corner has a number if no tree is missing around it; then it lists all trees around it *)
  Definition corner_neighbors : Prop :=
    (c_nc c = 0 -> forall x i, inside x -> 0 <= i < children d -> exists i', 0 <= i' < children d /\ nb x (minus (corner_pos i) (corner_pos i')) = None) /\
    (0 < c_nc c -> forall x i, inside x -> 0 <= i < children d -> exists a, zget (c_ttc c) (tree x * children d + i) = Some a /\
       (a = -1 /\ (exists i', 0 <= i' < children d /\ nb x (minus (corner_pos i) (corner_pos i')) = None) \/
        0 <= a < c_nc c /\ exists b, zget (c_coff c) a = Some b /\ zget (c_coff c) (a + 1) = Some (b + children d) /\
          forall i', 0 <= i' < children d -> exists y, nb x (minus (corner_pos i) (corner_pos i')) = Some y /\
            zget (c_ctt c) (b + (children d - 1 - i')) = Some (tree y) /\ zget (c_ctc c) (b + (children d - 1 - i')) = Some i')) /\
    (forall a, 0 <= a < c_nc c -> exists x i, inside x /\ 0 <= i < children d /\ zget (c_ttc c) (tree x * children d + i) = Some a).
  Definition edge_neighbors : Prop :=
    d = D3 ->
    (c_ne c = 0 -> forall x e, inside x -> 0 <= e < 12 -> exists e', 0 <= e' < 12 /\ e' / 4 = e / 4 /\ nb x (minus (edge_pos e) (edge_pos e')) = None) /\
    (0 < c_ne c -> forall x e, inside x -> 0 <= e < 12 -> exists a, zget (c_tte c) (tree x * 12 + e) = Some a /\
       (a = -1 /\ (exists e', 0 <= e' < 12 /\ e' / 4 = e / 4 /\ nb x (minus (edge_pos e) (edge_pos e')) = None) \/
        0 <= a < c_ne c /\ exists b, zget (c_eoff c) a = Some b /\ zget (c_eoff c) (a + 1) = Some (b + 4) /\
          forall e', 0 <= e' < 12 -> e' / 4 = e / 4 -> exists y, nb x (minus (edge_pos e) (edge_pos e')) = Some y /\
            zget (c_ett c) (b + (3 - e' mod 4)) = Some (tree y) /\ zget (c_ete c) (b + (3 - e' mod 4)) = Some e')) /\
    (forall a, 0 <= a < c_ne c -> exists x e, inside x /\ 0 <= e < 12 /\ zget (c_tte c) (tree x * 12 + e) = Some a).
  (** the vertices are the points of the lattice, and every point has one vertex *)
  Definition vertex_points : Prop :=
    exists ttv vx, c_ttv c = Some ttv /\ c_vertices c = Some vx /\ zlen vx = 3 * c_nv c /\
      (forall x i, inside x -> 0 <= i < children d -> exists v, zget ttv (tree x * children d + i) = Some v /\ 0 <= v < c_nv c /\
         let '(a, b, k) := plus x (corner_pos i) in zget vx (3 * v) = Some (dbl a) /\ zget vx (3 * v + 1) = Some (dbl b) /\ zget vx (3 * v + 2) = Some (dbl k)) /\
      (forall x i y j v w, inside x -> inside y -> 0 <= i < children d -> 0 <= j < children d ->
         zget ttv (tree x * children d + i) = Some v -> zget ttv (tree y * children d + j) = Some w ->
         (v = w <-> plus x (corner_pos i) = plus y (corner_pos j))).
End Spec.

(** ** From the helper functions of the model to the lattice *)

Lemma lattice_cell m n p x : in_lattice m n p x <-> cell m n p x.
Proof.
  unfold cell, size. destruct x as [[a b] c]. cbn [in_lattice]. split.
  - intros (A & B & C) k Hk. kcases k Hk; cbn; lia.
  - intros H. pose proof (H 0 ltac:(lia)) as A. pose proof (H 1 ltac:(lia)) as B. pose proof (H 2 ltac:(lia)) as C. cbn in A, B, C. auto.
Qed.

(** a step in direction k leaves the box *)
Definition leaves (m n p : Z) (pa pb pc : bool) (x o : xyz) (k : Z) : bool :=
  negb (per pa pb pc k) && ((cg x k + cg o k <? 0) || (size m n p k <=? cg x k + cg o k)).
Lemma advance_is s q a o : 0 < s -> 0 <= a < s -> -1 <= o <= 1 ->
  advance s q a o = if negb q && ((a + o <? 0) || (s <=? a + o)) then None else Some ((a + o + s) mod s).
Proof.
  intros Hs Ha Ho. unfold advance. rewrite mod_shift by auto. destruct ((0 <=? a + o) && (a + o <? s)) eqn:E.
  - rewrite Z.mod_small by lia. replace ((a + o <? 0) || (s <=? a + o)) with false by lia. rewrite andb_false_r. reflexivity.
  - replace ((a + o <? 0) || (s <=? a + o)) with true by lia. destruct q; reflexivity.
Qed.
Lemma shift_is m n p pa pb pc x o : 0 < m -> 0 < n -> 0 < p -> cell m n p x -> (forall k, 0 <= k < 3 -> -1 <= cg o k <= 1) ->
  shift m n p pa pb pc x o =
    if leaves m n p pa pb pc x o 0 || leaves m n p pa pb pc x o 1 || leaves m n p pa pb pc x o 2 then None else Some (wrap m n p x o).
Proof.
  intros Hm Hn Hp X O. pose proof (X 0 ltac:(lia)) as X0. pose proof (X 1 ltac:(lia)) as X1. pose proof (X 2 ltac:(lia)) as X2.
  pose proof (O 0 ltac:(lia)) as O0. pose proof (O 1 ltac:(lia)) as O1. pose proof (O 2 ltac:(lia)) as O2. clear X O.
  destruct x as [[a b] c]. destruct o as [[u v] w]. cbn in X0, X1, X2, O0, O1, O2. cbn [shift].
  rewrite !advance_is by auto. unfold leaves, per, size, wrap, tabulate, cg. cbn [Z.eqb Pos.eqb].
  destruct (negb pa && _); [reflexivity|]. destruct (negb pb && _); [reflexivity|]. destruct (negb pc && _); reflexivity.
Qed.
Lemma enum3 i : 0 <= i < 3 -> i = 0 \/ i = 1 \/ i = 2.
Proof. lia. Qed.
Lemma enum4 i : 0 <= i < 4 -> i = 0 \/ i = 1 \/ i = 2 \/ i = 3.
Proof. lia. Qed.
Lemma halves j : 0 <= j < 4 -> (j mod 2 = 0 \/ j mod 2 = 1) /\ (j / 2 = 0 \/ j / 2 = 1).
Proof. intros H. destruct (enum4 j H) as [->|[->|[->| ->]]]; cbn; auto. Qed.
Lemma corner_pos_is i k : 0 <= k < 3 -> cg (corner_pos i) k = bit i k.
Proof. intros H. unfold bit. kcases k H; cbn [corner_pos cg Z.eqb Pos.eqb]; [change (2 ^ 0) with 1; rewrite Z.div_1_r|..]; reflexivity. Qed.
Lemma edge_pos_is i j k : 0 <= i < 3 -> 0 <= j < 4 -> 0 <= k < 3 ->
  cg (edge_pos (i * 4 + j)) k = if k =? dir1 i then j mod 2 else if k =? dir2 i then j / 2 else 0.
Proof.
  intros Hi Hj Hk. destruct (enum3 i Hi) as [-> | [-> | ->]], (enum4 j Hj) as [-> | [-> | [-> | ->]]], (enum3 k Hk) as [-> | [-> | ->]]; reflexivity.
Qed.
Lemma minus_cg a b k : 0 <= k < 3 -> cg (minus a b) k = cg a k - cg b k.
Proof. intros H. destruct a as [[a0 a1] a2], b as [[b0 b1] b2]. kcases k H; reflexivity. Qed.
Lemma plus_cg a b k : 0 <= k < 3 -> cg (plus a b) k = cg a k + cg b k.
Proof. intros H. destruct a as [[a0 a1] a2], b as [[b0 b1] b2]. kcases k H; reflexivity. Qed.
Lemma normal_is i j k : 0 <= i < 3 -> 0 <= j < 2 -> 0 <= k < 3 -> cg (normal (2 * i + j)) k = cg (foff i j) k.
Proof.
  intros Hi Hj Hk. assert (J : j = 0 \/ j = 1) by lia. destruct (enum3 i Hi) as [-> | [-> | ->]], J as [-> | ->], (enum3 k Hk) as [-> | [-> | ->]]; reflexivity.
Qed.
Lemma wrap_wrap m n p x o o' : 0 < m -> 0 < n -> 0 < p -> wrap m n p (wrap m n p x o) o' = wrap m n p x (plus o o').
Proof.
  intros Hm Hn Hp. apply xyz_eq. intros k Hk. rewrite !wrap_cg, plus_cg by auto. pose proof (spos m n p Hm Hn Hp k Hk) as S.
  rewrite !mod_shift by auto. rewrite Z.add_mod_idemp_l by lia. f_equal. lia.
Qed.
Lemma wrap_same m n p x o o' : (forall k, 0 <= k < 3 -> cg o k = cg o' k) -> wrap m n p x o = wrap m n p x o'.
Proof. intros H. apply xyz_eq. intros k Hk. rewrite !wrap_cg, H by auto. reflexivity. Qed.

Section Facts.
  Variables (d : dim) (dbl : Z -> Z) (m n p : Z) (pa pb pc : bool) (c : conn) (vs : list xyz) (pu : Z) (pcu : bool).
  Hypothesis Hm : 0 < m.
  Hypothesis Hn : 0 < n.
  Hypothesis Hp : 0 < p.
  Hypothesis H2 : d = D2 -> p = 1 /\ pc = true.
  Hypothesis H3 : d = D3 -> p = pu /\ pc = pcu.
  Hypothesis B : bfacts d m n p pa pb pc dbl c vs.
  Local Notation tau := (tau d m n p pa pb pc).
  Local Notation cell := (cell m n p).
  Local Notation wrap := (wrap m n p).
  Local Notation outer := (outer m n p pa pb pc).
  Local Notation leaves := (leaves m n p pa pb pc).

  Lemma pz_is : (if is3 d then pu else 1) = p.
  Proof. clear - H2 H3. destruct d; [symmetry; apply H2; auto|symmetry; apply H3; auto]. Qed.
  Lemma nb_is x o : cell x -> (forall k, 0 <= k < 3 -> -1 <= cg o k <= 1) -> (d = D2 -> cg o 2 = 0) ->
    shift m n p pa pb pcu x o = if leaves x o 0 || leaves x o 1 || leaves x o 2 then None else Some (wrap x o).
  Proof.
    intros X O Z2. rewrite <- shift_is by auto. destruct (is3 d) eqn:I3.
    - assert (D : d = D3) by (clear - I3; destruct d; [discriminate|auto]). destruct (H3 D) as [_ ->]. reflexivity.
    - assert (D : d = D2) by (clear - I3; destruct d; [auto|discriminate]). specialize (Z2 D). pose proof (X 2 ltac:(lia)) as X2.
      destruct x as [[a b] k], o as [[u v] w]. cbn in Z2, X2. subst w. cbn [shift]. unfold advance at 3 6. replace ((0 <=? k + 0) && (k + 0 <? p)) with true by lia. reflexivity.
  Qed.

  (** around a corner and an edge *)
  Lemma leaves_outer x o k b b' : cell x -> 0 <= k < 3 -> b = 0 \/ b = 1 -> b' = 0 \/ b' = 1 -> cg o k = b - b' -> outer x k b = false -> leaves x o k = false.
  Proof.
    intros X Hk Hb Hb' O Q. specialize (X k Hk). unfold Brick.outer in Q. unfold PropertiesBrick.leaves. destruct (per pa pb pc k); [reflexivity|]. cbn [negb andb] in *. lia.
  Qed.
  Lemma outer_leaves x o k b : cell x -> 0 <= k < 3 -> b = 0 \/ b = 1 -> cg o k = b - (1 - b) -> outer x k b = true -> leaves x o k = true.
  Proof.
    intros X Hk Hb O Q. specialize (X k Hk). unfold Brick.outer in Q. unfold PropertiesBrick.leaves. destruct (per pa pb pc k); [discriminate|]. cbn [negb andb] in *. lia.
  Qed.
  Lemma leaves_zero x o k : cell x -> 0 <= k < 3 -> cg o k = 0 -> leaves x o k = false.
  Proof. intros X Hk O. specialize (X k Hk). unfold PropertiesBrick.leaves. replace ((cg x k + cg o k <? 0) || (size m n p k <=? cg x k + cg o k)) with false by lia. apply andb_false_r. Qed.

  Lemma ch4 i : 0 <= i < children d -> 0 <= i < 8 /\ (d = D2 -> bit i 2 = 0).
  Proof.
    clear. intros H. destruct d; cbn in H; split; try lia; try discriminate. intros _. unfold bit. rewrite Z.div_small by (cbn; lia). reflexivity.
  Qed.
  Lemma corner_off i i' k : 0 <= k < 3 -> cg (minus (corner_pos i) (corner_pos i')) k = bit i k - bit i' k.
  Proof. intros Hk. rewrite minus_cg, !corner_pos_is by auto. reflexivity. Qed.
  Lemma corner_nb x i i' : cell x -> 0 <= i < children d -> 0 <= i' < children d ->
    shift m n p pa pb pcu x (minus (corner_pos i) (corner_pos i')) =
      let o := minus (corner_pos i) (corner_pos i') in if leaves x o 0 || leaves x o 1 || leaves x o 2 then None else Some (wrap x o).
  Proof.
    intros X Hi Hi'. apply nb_is; auto.
    - intros k Hk. rewrite corner_off by auto. pose proof (bit01 i k). pose proof (bit01 i' k). lia.
    - intros D. rewrite corner_off by lia. rewrite (proj2 (ch4 i Hi) D), (proj2 (ch4 i' Hi') D). lia.
  Qed.
  Lemma corner_in x i i' : cell x -> 0 <= i < children d -> 0 <= i' < children d -> couter m n p pa pb pc x i = false ->
    shift m n p pa pb pcu x (minus (corner_pos i) (corner_pos i')) = Some (wrap (wrap x (clo i)) (chi i')).
  Proof.
    intros X Hi Hi' O. rewrite corner_nb by auto. cbv zeta. unfold couter in O. apply orb_false_elim in O. destruct O as [O O2]. apply orb_false_elim in O. destruct O as [O0 O1].
    rewrite (leaves_outer x _ 0 (bit i 0) (bit i' 0)), (leaves_outer x _ 1 (bit i 1) (bit i' 1)), (leaves_outer x _ 2 (bit i 2) (bit i' 2))
      by (auto using bit01, corner_off with zarith || (apply corner_off; lia)).
    cbn [orb]. f_equal. rewrite wrap_wrap by auto. apply wrap_same. intros k Hk. rewrite corner_off, plus_cg by auto. unfold clo, chi. rewrite !cg_tab by auto. lia.
  Qed.
  Lemma corner_out x i : cell x -> 0 <= i < children d -> couter m n p pa pb pc x i = true ->
    exists i', 0 <= i' < children d /\ shift m n p pa pb pcu x (minus (corner_pos i) (corner_pos i')) = None.
  Proof.
    intros X Hi O. assert (R : 0 <= children d - 1 - i < children d) by lia. exists (children d - 1 - i). split; [auto|]. rewrite corner_nb by auto. cbv zeta.
    assert (OP : forall k, 0 <= k < 3 -> outer x k (bit i k) = true -> bit (children d - 1 - i) k = 1 - bit i k).
    { intros k Hk Q. destruct (is3 d) eqn:I3.
      - assert (D : d = D3) by (clear - I3; destruct d; [discriminate|auto]). rewrite D in *. cbn in Hi |- *. clear - Hi Hk.
        destruct (oct i Hi) as [->|[->|[->|[->|[->|[->|[->| ->]]]]]]]; destruct (enum3 k Hk) as [->|[->| ->]]; reflexivity.
      - assert (D : d = D2) by (clear - I3; destruct d; [auto|discriminate]). destruct (Z.eq_dec k 2) as [->|NK].
        + unfold Brick.outer in Q. rewrite (proj2 (H2 D)) in Q. discriminate.
        + rewrite D in *. cbn in Hi |- *. assert (K : k = 0 \/ k = 1) by lia. clear - Hi K.
          destruct (enum4 i Hi) as [->|[->|[->| ->]]]; destruct K as [->| ->]; reflexivity. }
    unfold couter in O. apply orb_prop in O. destruct O as [O|O]; [apply orb_prop in O; destruct O as [O|O]|].
    - rewrite (outer_leaves x _ 0 (bit i 0)); auto using bit01; [lia|]. rewrite corner_off, OP by (auto; lia). lia.
    - rewrite (outer_leaves x _ 1 (bit i 1)); auto using bit01; [rewrite orb_true_r; reflexivity|lia|]. rewrite corner_off, OP by (auto; lia). lia.
    - rewrite (outer_leaves x _ 2 (bit i 2)); auto using bit01; [rewrite orb_true_r; reflexivity|lia|]. rewrite corner_off, OP by (auto; lia). lia.
  Qed.

  Lemma edge_off i j j' k : 0 <= i < 3 -> 0 <= j < 4 -> 0 <= j' < 4 -> 0 <= k < 3 ->
    cg (minus (edge_pos (i * 4 + j)) (edge_pos (i * 4 + j'))) k = if k =? dir1 i then j mod 2 - j' mod 2 else if k =? dir2 i then j / 2 - j' / 2 else 0.
  Proof. intros Hi Hj Hj' Hk. rewrite minus_cg, !edge_pos_is by auto. destruct (k =? dir1 i); [reflexivity|]. destruct (k =? dir2 i); reflexivity. Qed.
  Lemma edge_nb x i j j' : d = D3 -> cell x -> 0 <= i < 3 -> 0 <= j < 4 -> 0 <= j' < 4 ->
    shift m n p pa pb pcu x (minus (edge_pos (i * 4 + j)) (edge_pos (i * 4 + j'))) =
      let o := minus (edge_pos (i * 4 + j)) (edge_pos (i * 4 + j')) in if leaves x o 0 || leaves x o 1 || leaves x o 2 then None else Some (wrap x o).
  Proof.
    intros D X Hi Hj Hj'. apply nb_is; auto.
    - intros k Hk. rewrite edge_off by auto. pose proof (halves j Hj). pose proof (halves j' Hj'). destruct (k =? dir1 i); [lia|]. destruct (k =? dir2 i); lia.
    - rewrite D. discriminate.
  Qed.
  Lemma edge_in x i j j' : d = D3 -> cell x -> 0 <= i < 3 -> 0 <= j < 4 -> 0 <= j' < 4 -> eouter m n p pa pb pc x i j = false ->
    shift m n p pa pb pcu x (minus (edge_pos (i * 4 + j)) (edge_pos (i * 4 + j'))) = Some (wrap (wrap x (elo i j)) (ehi i j')).
  Proof.
    intros D X Hi Hj Hj' O. rewrite edge_nb by auto. cbv zeta. unfold eouter in O. apply orb_false_elim in O. destruct O as [O1 O2].
    pose proof (halves j Hj) as [J1 J2]. pose proof (halves j' Hj') as [J1' J2'].
    assert (L : forall k, 0 <= k < 3 -> leaves x (minus (edge_pos (i * 4 + j)) (edge_pos (i * 4 + j'))) k = false).
    { intros k Hk. pose proof (edge_off i j j' k Hi Hj Hj' Hk) as E. destruct (k =? dir1 i) eqn:E1.
      - apply Z.eqb_eq in E1. rewrite <- E1 in O1. apply (leaves_outer x _ k (j mod 2) (j' mod 2)); auto.
      - destruct (k =? dir2 i) eqn:E2.
        + apply Z.eqb_eq in E2. rewrite <- E2 in O2. apply (leaves_outer x _ k (j / 2) (j' / 2)); auto.
        + apply leaves_zero; auto. }
    rewrite !L by lia. cbn [orb]. f_equal. rewrite wrap_wrap by auto. apply wrap_same. intros k Hk. rewrite edge_off, plus_cg by auto. unfold elo, ehi. rewrite !cg_tab by auto.
    destruct (k =? dir1 i); [lia|]. destruct (k =? dir2 i); lia.
  Qed.
  Lemma edge_out x i j : d = D3 -> cell x -> 0 <= i < 3 -> 0 <= j < 4 -> eouter m n p pa pb pc x i j = true ->
    shift m n p pa pb pcu x (minus (edge_pos (i * 4 + j)) (edge_pos (i * 4 + (3 - j)))) = None.
  Proof.
    intros D X Hi Hj O. rewrite edge_nb by (auto; lia). cbv zeta. pose proof (halves j Hj) as [J1 J2].
    assert (M : (3 - j) mod 2 = 1 - j mod 2 /\ (3 - j) / 2 = 1 - j / 2) by (clear - Hj; destruct (enum4 j Hj) as [->|[->|[->| ->]]]; split; reflexivity).
    destruct (dirs d m n p pa pb pc H2 i Hi) as (K1 & K2 & KN & _).
    assert (L : exists k, 0 <= k < 3 /\ leaves x (minus (edge_pos (i * 4 + j)) (edge_pos (i * 4 + (3 - j)))) k = true).
    { unfold eouter in O. apply orb_prop in O. destruct O as [O|O].
      - exists (dir1 i). split; [auto|]. apply (outer_leaves x _ (dir1 i) (j mod 2)); auto. rewrite edge_off, Z.eqb_refl by (auto; lia). lia.
      - exists (dir2 i). split; [auto|]. apply (outer_leaves x _ (dir2 i) (j / 2)); auto. rewrite edge_off, Z.eqb_refl by (auto; lia). replace (dir2 i =? dir1 i) with false by lia. lia. }
    destruct L as (k & Hk & L). destruct (enum3 k Hk) as [->|[->| ->]]; rewrite L; rewrite ?orb_true_r; reflexivity.
  Qed.
  Lemma face_nb x i j : cell x -> 0 <= i < nd d -> 0 <= j < 2 ->
    shift m n p pa pb pcu x (normal (2 * i + j)) = if outer x i j then None else Some (wrap x (foff i j)).
  Proof.
    intros X Hi Hj. assert (N3 : nd d <= 3) by (clear; destruct d; cbn; lia).
    assert (F : forall k, 0 <= k < 3 -> cg (normal (2 * i + j)) k = if i =? k then 2 * j - 1 else 0).
    { intros k Hk. rewrite normal_is by lia. unfold foff. rewrite cg_tab by auto. reflexivity. }
    rewrite nb_is; auto.
    2: { intros k Hk. rewrite F by auto. destruct (i =? k); lia. }
    2: { intros D. rewrite F by lia. rewrite D in Hi. cbn in Hi. replace (i =? 2) with false by lia. reflexivity. }
    assert (L : forall k, 0 <= k < 3 -> k <> i -> leaves x (normal (2 * i + j)) k = false).
    { intros k Hk NK. apply leaves_zero; auto. rewrite F by auto. replace (i =? k) with false by lia. reflexivity. }
    assert (LI : leaves x (normal (2 * i + j)) i = outer x i j).
    { pose proof (X i ltac:(lia)) as XI. unfold PropertiesBrick.leaves, Brick.outer. rewrite F, Z.eqb_refl by lia. f_equal. lia. }
    rewrite (wrap_same m n p x (normal (2 * i + j)) (foff i j)) by (intros k Hk; apply normal_is; lia).
    rewrite <- LI. destruct (enum3 i ltac:(lia)) as [E|[E|E]]; subst i.
    - rewrite (L 1), (L 2), !orb_false_r by lia. reflexivity.
    - rewrite (L 0), (L 2), orb_false_r by lia. reflexivity.
    - rewrite (L 0), (L 1) by lia. reflexivity.
  Qed.

  (** *** The parts of the property *)
  Local Notation inside x := (in_lattice m n (if is3 d then pu else 1) x).
  Lemma inside_cell x : inside x <-> cell x.
  Proof. rewrite pz_is. apply lattice_cell. Qed.

  Lemma brick_numbering : numbering d m n pu c tau.
  Proof.
    pose proof (bf_nt _ _ _ _ _ _ _ _ _ _ B) as NT. unfold numbering. rewrite NT.
    split; [intros x X; apply tau_nt; auto; apply inside_cell; auto|].
    split; [intros x y X Y E; apply (tau_inj d m n p pa pb pc); auto; apply inside_cell; auto|].
    split; [intros t Ht; destruct (tau_onto d m n p pa pb pc Hm Hn Hp H2 t) as (x & X & E); [rewrite (xs_len d m n p pc Hm Hn Hp H2); auto|exists x; split; [apply inside_cell; auto|auto]]|].
    intros a b k a' b' k' X Y L0 L1 L2. apply (tau_le d m n p pa pb pc); auto; try (apply inside_cell; auto). intros j Hj. kcases j Hj; cbn; lia.
  Qed.
  Lemma brick_counts : counts d m n pu pa pb pcu c.
  Proof.
    destruct B as [Bnv Bnt Bne Bnc Bat _ _ _ _ _ _ _ _ _]. unfold counts. rewrite Bnv, Bnt, Bne, Bnc. clear - H2 H3 Bat.
    unfold num_trees, num_vertices, num_corners, num_edges, csize, per, size. cbn [cg Z.eqb Pos.eqb].
    destruct d; cbn [is3]; [destruct (H2 eq_refl) as (-> & ->)|destruct (H3 eq_refl) as (-> & ->)]; auto 6.
  Qed.
  Lemma brick_faces : face_neighbors d m n pu pa pb pcu c tau.
  Proof.
    intros x r X Hr. apply inside_cell in X. rewrite pz_is. destruct (bf_ttt _ _ _ _ _ _ _ _ _ _ B) as [_ Gt]. destruct (bf_ttf _ _ _ _ _ _ _ _ _ _ B) as [_ Gf].
    assert (ND : faces d = 2 * nd d) by (apply faces_nd). assert (N3 : nd d <= 3) by (clear; destruct d; cbn; lia).
    pose proof (Z.div_mod r 2 ltac:(lia)) as DM. pose proof (Z.mod_pos_bound r 2 ltac:(lia)) as MB.
    set (i := r / 2) in *. set (j := r mod 2) in *. assert (Hi : 0 <= i < nd d) by lia.
    rewrite DM. unfold find_face_transform. replace (faces d * tau x + (2 * i + j)) with (tau x * faces d + (2 * i + j)) by lia. rewrite Gt, Gf, face_nb by auto.
    destruct (outer x i j) eqn:O.
    - rewrite Z.rem_small, !Z.eqb_refl by lia. reflexivity.
    - rewrite Z.rem_small, Z.quot_small by lia.
      replace ((i * 2 + (1 - j) =? 2 * i + j)) with false by lia. rewrite andb_false_r.
      replace (opposite (2 * i + j)) with (i * 2 + (1 - j)); [reflexivity|]. unfold opposite. rewrite <- DM. fold j. destruct (j =? 0) eqn:E; lia.
  Qed.
  Lemma brick_corners : corner_neighbors d m n pu pa pb pcu c tau.
  Proof.
    unfold corner_neighbors. rewrite !pz_is. destruct (bf_c _ _ _ _ _ _ _ _ _ _ B) as (EO & _ & XX). rewrite (bf_nc _ _ _ _ _ _ _ _ _ _ B). pose proof (ch8 d) as C8.
    split; [|split].
    - intros N0 x i X Hi. apply lattice_cell in X. destruct (couter m n p pa pb pc x i) eqn:O; [apply corner_out; auto|].
      assert (W : cell (wrap x (clo i))) by (apply wrap_cell; auto).
      pose proof (gam_nc d m n p pa pb pc Hm Hn Hp H2 _ W (clo_flag d m n p pa pb pc Hm Hn Hp H2 x i X O)). lia.
    - intros P x i X Hi. apply lattice_cell in X. destruct (XX P) as (_ & _ & _ & G1 & G2). rewrite G1 by auto. eexists. split; [reflexivity|].
      destruct (couter m n p pa pb pc x i) eqn:O; [left; split; [reflexivity|apply corner_out; auto]|right].
      assert (W : cell (wrap x (clo i))) by (apply wrap_cell; auto). pose proof (clo_flag d m n p pa pb pc Hm Hn Hp H2 x i X O) as FL.
      pose proof (gam_nc d m n p pa pb pc Hm Hn Hp H2 _ W FL) as GR. split; [auto|]. rewrite EO, !offs_get by lia. eexists. split; [reflexivity|]. split; [f_equal; lia|].
      intros i' Hi'. exists (wrap (wrap x (clo i)) (chi i')). split; [apply corner_in; auto|]. destruct (G2 _ i' W Hi' FL) as [A1 A2]. rewrite (Z.mul_comm _ (children d)) in A1, A2. auto.
    - intros a Ha. destruct (XX ltac:(lia)) as (_ & _ & _ & G1 & _).
      destruct (gam_onto d m n p pa pb pc Hm Hn Hp H2 a) as (y & Y & FL & E); [rewrite (cs_len d m n p pa pb pc Hm Hn Hp H2); auto|].
      exists (wrap y (chi 0)), 0. assert (W : cell (wrap y (chi 0))) by (apply wrap_cell; auto). split; [apply lattice_cell; auto|]. split; [lia|].
      rewrite G1 by (auto; lia). rewrite (chi_flag d m n p pa pb pc Hm Hn Hp H2) by auto.
      rewrite (wrap_back d m n p pc Hm Hn Hp H2 y); [f_equal; auto|auto|]. intros k Hk. rewrite Z.add_comm. apply (clo_hi d p pc H2); auto.
  Qed.
  Lemma brick_edges : edge_neighbors d m n pu pa pb pcu c tau.
  Proof.
    intros D. rewrite !pz_is. destruct (bf_e _ _ _ _ _ _ _ _ _ _ B D) as (EO & _ & XX). rewrite (bf_ne _ _ _ _ _ _ _ _ _ _ B).
    assert (SP : forall e, 0 <= e < 12 -> exists i j, 0 <= i < 3 /\ 0 <= j < 4 /\ e = i * 4 + j /\ e / 4 = i /\ e mod 4 = j).
    { intros e He. exists (e / 4), (e mod 4). pose proof (Z.div_mod e 4 ltac:(lia)). pose proof (Z.mod_pos_bound e 4 ltac:(lia)). lia. }
    assert (DV : forall i j, 0 <= j < 4 -> (i * 4 + j) / 4 = i) by (intros i j Hj; rewrite Z.div_add_l, Z.div_small by lia; lia).
    assert (OUT : forall x e i j, cell x -> 0 <= i < 3 -> 0 <= j < 4 -> e = i * 4 + j -> eouter m n p pa pb pc x i j = true ->
      exists e', 0 <= e' < 12 /\ e' / 4 = e / 4 /\ shift m n p pa pb pcu x (minus (edge_pos e) (edge_pos e')) = None).
    { intros x e i j X Hi Hj -> O. exists (i * 4 + (3 - j)). split; [lia|]. split; [rewrite !DV by lia; auto|]. apply edge_out; auto. }
    split; [|split].
    - intros N0 x e X He. apply lattice_cell in X. destruct (SP e He) as (i & j & Hi & Hj & E & _). destruct (eouter m n p pa pb pc x i j) eqn:O; [eapply OUT; eauto|].
      assert (W : cell (wrap x (elo i j))) by (apply wrap_cell; auto).
      pose proof (eps_ne d m n p pa pb pc Hm Hn Hp H2 _ i W Hi (elo_flag d m n p pa pb pc Hm Hn Hp H2 x i j X Hi Hj O)) as EN. rewrite <- (ne_is3 d) in EN by auto. lia.
    - intros P x e X He. apply lattice_cell in X. destruct (XX P) as (_ & _ & _ & G1 & G2). destruct (SP e He) as (i & j & Hi & Hj & E & E4 & _). rewrite E, G1 by auto. eexists. split; [reflexivity|].
      destruct (eouter m n p pa pb pc x i j) eqn:O; [left; split; [reflexivity|eapply OUT; eauto]|right].
      assert (W : cell (wrap x (elo i j))) by (apply wrap_cell; auto). pose proof (elo_flag d m n p pa pb pc Hm Hn Hp H2 x i j X Hi Hj O) as FL.
      pose proof (eps_ne d m n p pa pb pc Hm Hn Hp H2 _ i W Hi FL) as GR. rewrite <- (ne_is3 d) in GR by auto. split; [auto|]. rewrite EO, !offs_get by lia. eexists. split; [reflexivity|]. split; [f_equal; lia|].
      intros e' He' Q. destruct (SP e' He') as (i' & j' & Hi' & Hj' & E' & E4' & EM'). assert (EI : i' = i) by (rewrite <- E4', Q; apply DV; auto). rewrite EM', E'. rewrite EI. clear E' E4' Q EM' Hi' EI.
      exists (wrap (wrap x (elo i j)) (ehi i j')). split; [apply edge_in; auto|]. apply (G2 _ i j' W Hi Hj' FL).
    - intros a Ha. destruct (XX ltac:(lia)) as (_ & _ & _ & G1 & _).
      destruct (eps_onto d m n p pa pb pc Hm Hn Hp H2 a) as (y & i & Y & Hi & FL & E); [rewrite (ne_is d m n p pa pb pc Hm Hn Hp H2), <- (ne_is3 d) by auto; auto|].
      exists (wrap y (ehi i 0)), (i * 4 + 0). assert (W : cell (wrap y (ehi i 0))) by (apply wrap_cell; auto). split; [apply lattice_cell; auto|]. split; [lia|].
      rewrite G1 by (auto; lia). rewrite (ehi_flag d m n p pa pb pc Hm Hn Hp H2) by (auto; lia).
      rewrite (wrap_back d m n p pc Hm Hn Hp H2 y); [f_equal; auto|auto|]. intros k Hk. rewrite Z.add_comm. apply (elo_hi d p pc H2); auto.
  Qed.
  Lemma triples_get {A} (f g h : A -> Z) (l : list A) : forall v q, zget l v = Some q ->
    zget (flat_map (fun q => [f q; g q; h q]) l) (3 * v) = Some (f q) /\ zget (flat_map (fun q => [f q; g q; h q]) l) (3 * v + 1) = Some (g q) /\
    zget (flat_map (fun q => [f q; g q; h q]) l) (3 * v + 2) = Some (h q).
  Proof.
    clear. induction l as [|a l IH]; intros v q G; [unfold zget in G; destruct (v <? 0); [discriminate|destruct (Z.to_nat v); discriminate]|].
    pose proof (zget_range _ _ _ G) as R. cbn [flat_map app]. rewrite zget_cons in G. rewrite !zget_cons. destruct (v =? 0) eqn:E.
    - assert (v = 0) by lia. subst v. apply some_inj in G. subst a. cbn. auto.
    - destruct (IH _ _ G) as (A1 & A2 & A3). replace (3 * v =? 0) with false by lia. replace (3 * v + 1 =? 0) with false by lia. replace (3 * v + 2 =? 0) with false by lia.
      replace (3 * v - 1 =? 0) with false by lia. replace (3 * v + 1 - 1 =? 0) with false by lia. replace (3 * v + 2 - 1 =? 0) with false by lia.
      replace (3 * v - 1 - 1 =? 0) with false by lia. replace (3 * v + 1 - 1 - 1 =? 0) with false by lia. replace (3 * v + 2 - 1 - 1 =? 0) with false by lia.
      replace (3 * v - 1 - 1 - 1) with (3 * (v - 1)) by lia. replace (3 * v + 1 - 1 - 1 - 1) with (3 * (v - 1) + 1) by lia. replace (3 * v + 2 - 1 - 1 - 1) with (3 * (v - 1) + 2) by lia. auto.
  Qed.
  Lemma triples_len {A} (f g h : A -> Z) (l : list A) : zlen (flat_map (fun q => [f q; g q; h q]) l) = 3 * zlen l.
  Proof. clear. induction l as [|a l IH]; [reflexivity|]. unfold zlen in *. cbn [flat_map app length]. lia. Qed.
  Lemma pt_is x i : pt x i = plus x (corner_pos i).
  Proof. apply xyz_eq. intros k Hk. rewrite pt_cg, plus_cg, corner_pos_is by auto. reflexivity. Qed.
  Lemma brick_points : vertex_points d dbl m n pu c tau.
  Proof.
    unfold vertex_points. rewrite !pz_is. destruct (bf_ttv _ _ _ _ _ _ _ _ _ _ B) as (ttv & E & L & G). destruct (bf_vs _ _ _ _ _ _ _ _ _ _ B) as [LV ND].
    exists ttv. eexists. split; [exact E|]. split; [apply (bf_vx _ _ _ _ _ _ _ _ _ _ B)|]. rewrite (bf_nv _ _ _ _ _ _ _ _ _ _ B). split; [rewrite triples_len; lia|]. split.
    - intros x i X Hi. apply lattice_cell in X. destruct (G x i X Hi) as (v & A & R & P). exists v. split; [auto|]. split; [auto|].
      rewrite pt_is in P. destruct (plus x (corner_pos i)) as [[a b] k] eqn:EP. pose proof (triples_get (fun q => dbl (cg q 0)) (fun q => dbl (cg q 1)) (fun q => dbl (cg q 2)) _ _ _ P) as T. exact T.
    - intros x i y j v w X Y Hi Hj A1 A2. apply lattice_cell in X, Y. destruct (G x i X Hi) as (v' & B1 & _ & P1). destruct (G y j Y Hj) as (w' & B2 & _ & P2).
      assert (v = v') by congruence. assert (w = w') by congruence. subst v' w'. rewrite pt_is in P1, P2. split.
      + intros ->. congruence.
      + intros Q. rewrite Q in P1. apply (nodup_zget vs v w (plus y (corner_pos j))); auto.
  Qed.
End Facts.

(** ** The theorems *)

(** the sizes that p4est_topidx_t, a 32-bit integer, can number *)
Definition countable (d : dim) (m n p : Z) (pa pb pc : bool) : Prop :=
  if is3 d then fits d m n p pa pb pc = true else fits d m n 1 pa pb true = true.

Theorem C70_brick d dbl m n p pa pb pc :
  0 < m -> 0 < n -> (d = D3 -> 0 < p) -> countable d m n p pa pb pc ->
  exists c tree, new_brick d dbl m n p pa pb pc = Some c /\
    conn_is_valid d c = Some true /\
    numbering d m n p c tree /\ counts d m n p pa pb pc c /\
    face_neighbors d m n p pa pb pc c tree /\ edge_neighbors d m n p pa pb pc c tree /\ corner_neighbors d m n p pa pb pc c tree /\
    vertex_points d dbl m n p c tree.
Proof.
  intros Hm Hn Hp HF.
  assert (G : forall p' pc', 0 < p' -> (d = D2 -> p' = 1 /\ pc' = true) -> (d = D3 -> p' = p /\ pc' = pc) -> fits d m n p' pa pb pc' = true ->
    exists c tree, brick d m n p' pa pb pc' dbl = Some c /\
    conn_is_valid d c = Some true /\
    numbering d m n p c tree /\ counts d m n p pa pb pc c /\
    face_neighbors d m n p pa pb pc c tree /\ edge_neighbors d m n p pa pb pc c tree /\ corner_neighbors d m n p pa pb pc c tree /\
    vertex_points d dbl m n p c tree).
  { intros p' pc' Hp' H2 H3 FT. destruct (brick_is d m n p' pa pb pc' Hm Hn Hp' H2 dbl FT) as (c & vs & E & B).
    exists c, (tau d m n p' pa pb pc'). split; [exact E|]. split; [exact (brick_valid d m n p' pa pb pc' Hm Hn Hp' H2 dbl c vs B)|].
    split; [eapply brick_numbering; eauto|]. split; [eapply brick_counts; eauto|]. split; [eapply brick_faces; eauto|]. split; [eapply brick_edges; eauto|].
    split; [eapply brick_corners; eauto|eapply brick_points; eauto]. }
  unfold new_brick, countable in *. destruct d; cbn [is3] in *.
  - apply G; auto; [lia|discriminate].
  - apply G; auto; discriminate.
Qed.

(** 89 million trees are not too many *)
Theorem C70_countable d m n p pa pb pc : 0 < m -> 0 < n -> (d = D3 -> 0 < p) ->
  m * n * (if is3 d then p else 1) <= 89478485 -> countable d m n p pa pb pc.
Proof.
  intros Hm Hn Hp HL.
  assert (POW : forall x, 0 < x -> 1 <= 2 ^ (log2_32 (x - 1) + 1) <= 2 * x).
  { intros x Hx. unfold log2_32. destruct (x - 1 <=? 0) eqn:E; [change (2 ^ (-1 + 1)) with 1; lia|]. pose proof (Z.log2_spec (x - 1) ltac:(lia)) as [A _]. pose proof (Z.pow_pos_nonneg 2 (Z.log2 (x - 1)) ltac:(lia) (Z.log2_nonneg _)). pose proof (Z.log2_nonneg (x - 1)).
    rewrite Z.pow_add_r by lia. change (2 ^ 1) with 2. lia. }
  assert (G : forall p' pc', 0 < p' -> m * n * p' <= 89478485 -> (d = D2 -> p' = 1) -> fits d m n p' pa pb pc' = true).
  { intros p' pc' Hp' L P1. unfold fits. assert (A : forall P : Prop, P -> P) by auto.
    pose proof (POW m Hm) as PM. pose proof (POW n Hn) as PN. pose proof (POW p' Hp') as PP.
    assert (MN : 0 < m * n) by nia. set (M := m * n * p') in *.
    assert (C : forall k, 0 <= k < 3 -> 0 <= csize m n p' pa pb pc' k <= size m n p' k).
    { intros k Hk. unfold csize, size, per. clear - Hm Hn Hp' Hk; destruct (enum3 k Hk) as [->|[->| ->]]; cbn [cg Z.eqb Pos.eqb]; destruct pa, pb, pc'; lia. }
    pose proof (C 0 ltac:(lia)) as C0. pose proof (C 1 ltac:(lia)) as C1. pose proof (C 2 ltac:(lia)) as C2. unfold size in C0, C1, C2. cbn in C0, C1, C2.
    set (c0 := csize m n p' pa pb pc' 0) in *. set (c1 := csize m n p' pa pb pc' 1) in *. set (c2 := csize m n p' pa pb pc' 2) in *.
    assert (Q : forall a b c a' b' c', 0 <= a <= a' -> 0 <= b <= b' -> 0 <= c <= c' -> 0 <= a * b * c <= a' * b' * c').
    { intros a b c a' b' c' X Y Z. assert (XY : 0 <= a * b <= a' * b') by (split; [apply Z.mul_nonneg_nonneg; lia|apply Z.mul_le_mono_nonneg; lia]). split; [apply Z.mul_nonneg_nonneg; lia|apply Z.mul_le_mono_nonneg; lia]. }
    unfold num_trees, num_corners, num_edges, num_vertices, n_iter, lg, logs. cbn [cg Z.eqb Pos.eqb]. fold c0 c1 c2. fold M.
    assert (I : 2 ^ (log2_32 (m - 1) + 1) * 2 ^ (log2_32 (n - 1) + 1) * 2 ^ (log2_32 (p' - 1) + 1) <= 8 * M).
    { pose proof (Q (2 ^ (log2_32 (m - 1) + 1)) (2 ^ (log2_32 (n - 1) + 1)) (2 ^ (log2_32 (p' - 1) + 1)) (2 * m) (2 * n) (2 * p') ltac:(lia) ltac:(lia) ltac:(lia)). unfold M. lia. }
    assert (V : (m + 1) * (n + 1) * (if is3 d then p' + 1 else 1) <= 8 * M).
    { pose proof (Q (m + 1) (n + 1) (if is3 d then p' + 1 else 1) (2 * m) (2 * n) (2 * p') ltac:(lia) ltac:(lia) ltac:(destruct (is3 d); lia)). unfold M. lia. }
    pose proof (Q c0 c1 c2 m n p' C0 C1 C2) as QC. pose proof (Q m c1 c2 m n p' ltac:(lia) C1 C2) as Q1. pose proof (Q c0 n c2 m n p' C0 ltac:(lia) C2) as Q2. pose proof (Q c0 c1 p' m n p' C0 C1 ltac:(lia)) as Q3. fold M in QC, Q1, Q2, Q3.
    clear - L I V QC Q1 Q2 Q3 MN. cbn [forallb]. destruct d; cbn [is3 children] in *; lia. }
  unfold countable. destruct d; cbn [is3] in *; apply G; auto; lia || discriminate.
Qed.

(** ** The transformation across a face is a translation by one unit cube *)
Theorem C70_translation d f q : 0 <= f < faces d ->
  - ROOT_LEN <= qx q < 2 * ROOT_LEN -> - ROOT_LEN <= qy q < 2 * ROOT_LEN -> - ROOT_LEN <= qz q < 2 * ROOT_LEN -> (d = D2 -> qz q = 0) ->
  (let '(u, v, w) := normal f in
   -2 * ROOT_LEN <= qx q - u * ROOT_LEN < 2 * ROOT_LEN /\ -2 * ROOT_LEN <= qy q - v * ROOT_LEN < 2 * ROOT_LEN /\ -2 * ROOT_LEN <= qz q - w * ROOT_LEN < 2 * ROOT_LEN) ->
  transform_face d q (expand_face_transform d f (opposite f) 0) =
    let '(u, v, w) := normal f in mkq (qx q - u * ROOT_LEN) (qy q - v * ROOT_LEN) (qz q - w * ROOT_LEN) (ql q).
Proof.
  intros Hf X Y Z Z0 R.
  assert (I : forall a, -2 * ROOT_LEN <= a < 2 * ROOT_LEN -> i32 a = a).
  { intros a Ha. change ROOT_LEN with 1073741824 in Ha. unfold i32. change (2 ^ 31) with 2147483648. change (2 ^ 32) with 4294967296. rewrite Z.mod_small by lia. lia. }
  assert (RL : 0 < ROOT_LEN) by (change ROOT_LEN with 1073741824; lia).
  destruct q as [x y z l]. cbn [qx qy qz ql] in *. unfold transform_face.
  set (mh := if l =? MAXLEVEL then 0 else - QLEN l). cbv zeta. set (T := i32 (ROOT_LEN + (ROOT_LEN + mh))). clearbody T mh.
  destruct d.
  - specialize (Z0 eq_refl). subst z. cbn in Hf. destruct (enum4 f Hf) as [->|[->|[->| ->]]];
      match goal with |- context [expand_face_transform ?a ?b ?c ?o] => let e := eval vm_compute in (expand_face_transform a b c o) in change (expand_face_transform a b c o) with e end;
      match goal with |- context [normal ?b] => let e := eval vm_compute in (normal b) in change (normal b) with e in * end;
      cbn [my0 my1 my2 tg0 tg1 tg2 er0 er1 er2 is3 vget vset Z.eqb Pos.eqb qx qy qz ql] in *; f_equal; rewrite ?I by lia; lia.
  - cbn in Hf. assert (F : f = 0 \/ f = 1 \/ f = 2 \/ f = 3 \/ f = 4 \/ f = 5) by lia. destruct F as [->|[->|[->|[->|[->| ->]]]]];
      match goal with |- context [expand_face_transform ?a ?b ?c ?o] => let e := eval vm_compute in (expand_face_transform a b c o) in change (expand_face_transform a b c o) with e end;
      match goal with |- context [normal ?b] => let e := eval vm_compute in (normal b) in change (normal b) with e in * end;
      cbn [my0 my1 my2 tg0 tg1 tg2 er0 er1 er2 is3 vget vset Z.eqb Pos.eqb qx qy qz ql] in *; f_equal; rewrite ?I by lia; lia.
Qed.

(** ** Examples *)
Definition summary (d : dim) (o : option conn) : option (option bool * list Z) :=
  match o with Some c => Some (conn_is_valid d c, [c_nt c; c_nv c; c_ne c; c_nc c]) | None => None end.
Example C70_ex2 : summary D2 (new_brick D2 (fun x => x) 3 2 7 false true false) = Some (Some true, [6; 12; 0; 4]).
Proof. vm_compute. reflexivity. Qed.
Example C70_ex3 : summary D3 (new_brick D3 (fun x => x) 3 2 2 false true false) = Some (Some true, [12; 36; 18; 4]).
Proof. vm_compute. reflexivity. Qed.
(** one tree, periodic in all directions: its own neighbor across every face *)
Example C70_ex_torus : match new_brick D2 (fun x => x) 1 1 0 true true false with
                       | Some c => find_face_transform D2 c 0 0 = Some (Some (0, expand_face_transform D2 0 1 0)) /\ c_ctt c = [0; 0; 0; 0]
                       | None => False end.
Proof. vm_compute. auto. Qed.
Example C70_ex_hyp : countable D3 3 2 2 false true false /\ countable D2 1000 1000 0 true true true.
Proof. split; apply C70_countable; cbn; lia || discriminate. Qed.
Example C70_ex_translation : transform_face D3 (mkq (- ROOT_LEN) 0 (ROOT_LEN / 2) 1) (expand_face_transform D3 0 1 0) = mkq 0 0 (ROOT_LEN / 2) 1.
Proof. vm_compute. reflexivity. Qed.

Print Assumptions C70_brick.
Print Assumptions C70_countable.
Print Assumptions C70_translation.
