(** * Property C71: p4est_connectivity_complete

    Statements in terms of the vertices that tree_to_vertex gives to the corners of the trees. *)

From Coq Require Import ZArith List Bool Lia ZifyBool Permutation.
From Verif Require Import Quad Spec Neighbor Transform Partition Conn ConnLemmas ConnBounds PropertiesTransform PropertiesConn Permute PermuteArray.
From Verif Require Import ConnComplete ConnCompleteArray ConnCompleteFaces ConnCompleteGroups ConnCompleteValid ConnCompleteEdges ConnCompleteCorners ConnCompleteMeaning.
Import ListNotations.
Open Scope Z_scope.

(** ** What the vertices say *)

(** the vertex of corner k of tree t *)
Definition vert (d : dim) (c : conn) (t k : Z) : Z :=
  match c_ttv c with None => -1 | Some l => nth (Z.to_nat (children d * t + k)) l (-1) end.
(** the vertices of a face: those of the corners on it *)
Definition on_faceb (f k : Z) : bool := (k / 2 ^ (f / 2)) mod 2 =? f mod 2.
Definition face_verts (d : dim) (c : conn) (t f : Z) : list Z :=
  map (vert d c t) (filter (on_faceb f) (map Z.of_nat (seq 0 (Z.to_nat (children d))))).
(** another face has the same vertices *)
Definition paired (d : dim) (c : conn) (t f t' f' : Z) : Prop :=
  0 <= t' < c_nt c /\ 0 <= f' < faces d /\ ~ (t' = t /\ f' = f) /\ Permutation (face_verts d c t f) (face_verts d c t' f').
Definition lonely (d : dim) (c : conn) (t f : Z) : Prop := forall t' f', ~ paired d c t f t' f'.
(** tree_to_tree and tree_to_face lead from face f of t to face f' of t' with orientation o *)
Definition leads (d : dim) (c : conn) (t f t' f' o : Z) : Prop :=
  zget (c_ttt c) (faces d * t + f) = Some t' /\ zget (c_ttf c) (faces d * t + f) = Some (faces d * o + f').
(** the corners of the two faces that are mapped to each other by orientation o have the same vertices *)
Definition fits (d : dim) (c : conn) (t f t' f' o : Z) : Prop :=
  0 <= o < half d /\
  forall k, 0 <= k < children d -> on_faceb f k = true -> vert d c t' (face_neighbor_corner d k f f' o) = vert d c t k.

(** ** Tables *)
Lemma below_ok n i : 0 <= i < n -> In i (below n).
Proof. apply below_in. Qed.
Ltac tab T x H := rewrite forallb_forall in T; specialize (T x (below_ok _ _ H)); cbv beta in T.

Lemma face_corner_table d : forallb (fun f => list_eqb (filter (on_faceb f) (map Z.of_nat (seq 0 (Z.to_nat (children d))))) (map (face_corners d f) (below (half d)))) (below (faces d)) = true.
Proof. destruct d; vm_compute; reflexivity. Qed.
Lemma corner_face_table d : forallb (fun f => forallb (fun i => (corner_face_corners d (face_corners d f i) f =? i) && on_faceb f (face_corners d f i) && (0 <=? face_corners d f i) && (face_corners d f i <? children d)) (below (half d))) (below (faces d)) = true.
Proof. destruct d; vm_compute; reflexivity. Qed.
Lemma face_corner_table2 d : forallb (fun f => forallb (fun k => implb (on_faceb f k) ((0 <=? corner_face_corners d k f) && (corner_face_corners d k f <? half d) && (face_corners d f (corner_face_corners d k f) =? k))) (below (children d))) (below (faces d)) = true.
Proof. destruct d; vm_compute; reflexivity. Qed.
Lemma orient_table d : forallb (fun f => forallb (fun g => forallb (fun o =>
  implb (f <=? g) (face_neighbor_face_corner d 0 f g o =? o) && implb (g <=? f) (face_neighbor_face_corner d o f g o =? 0) &&
  forallb (fun i => (0 <=? face_neighbor_face_corner d i f g o) && (face_neighbor_face_corner d i f g o <? half d)) (below (half d)))
  (below (half d))) (below (faces d))) (below (faces d)) = true.
Proof. destruct d; vm_compute; reflexivity. Qed.
Lemma corner_faces_table d : forallb (fun k => forallb (fun i => on_faceb (corner_faces d k i) k) (below (nd d))) (below (children d)) = true.
Proof. destruct d; vm_compute; reflexivity. Qed.
Lemma edge_faces_table : forallb (fun e => forallb (fun i => forallb (fun j => on_faceb (edge_faces e i) (edge_corners e j)) (below 2)) (below 2)) (below 12) = true.
Proof. vm_compute; reflexivity. Qed.
Lemma corner_edges_table : forallb (fun k => forallb (fun i => edge_corners (corner_edges k i) (b2z (edge_corners (corner_edges k i) 1 =? k)) =? k) (below 3)) (below 8) = true.
Proof. vm_compute; reflexivity. Qed.
Lemma edge_corners_table : forallb (fun e => forallb (fun i => (0 <=? edge_corners e i) && (edge_corners e i <? 8)) (below 2) && negb (edge_corners e 0 =? edge_corners e 1)) (below 12) = true.
Proof. vm_compute; reflexivity. Qed.

Section Bridge.
  Variables (d : dim) (c : conn) (ttv : list Z).
  Hypothesis TV : c_ttv c = Some ttv.

  Lemma vert_is t k : vert d c t k = vtx d ttv t k.
  Proof. unfold vert. rewrite TV. reflexivity. Qed.
  Lemma face_verts_is t f : 0 <= f < faces d -> face_verts d c t f = fverts d ttv (t, f).
  Proof.
    intros Hf. pose proof (face_corner_table d) as T. tab T f Hf. apply list_eqb_eq in T. unfold face_verts. rewrite T, map_map. unfold fverts. cbn [fst snd].
    apply map_ext. intros i. apply vert_is.
  Qed.
  Lemma paired_is t f y : 0 <= f < faces d -> paired d c t f (fst y) (snd y) <-> partner d ttv (c_nt c) (t, f) y.
  Proof.
    intros Hf. destruct y as [t' f']. unfold paired, partner. cbn [fst snd]. unfold all_faces. rewrite in_prod_iff, !below_in. split.
    - intros (A & B & N & P). split; [auto|]. split; [intros E; injection E as -> ->; apply N; auto|]. rewrite !face_verts_is in P by auto. exact P.
    - intros ((A & B) & N & P). split; [auto|]. split; [auto|]. split; [intros [-> ->]; apply N; auto|]. rewrite !face_verts_is by auto. exact P.
  Qed.
  Lemma lonely_is t f : 0 <= f < faces d -> lonely d c t f <-> forall y, ~ partner d ttv (c_nt c) (t, f) y.
  Proof.
    intros Hf. split.
    - intros L y P. apply (L (fst y) (snd y)). apply paired_is; auto.
    - intros L t' f' P. apply (L (t', f')). apply paired_is; auto.
  Qed.
End Bridge.

(** ** The faces *)
Section Complete.
  Variables (d : dim) (c : conn).
  Hypothesis AL : allocated d c.
  Hypothesis VA : conn_is_valid d c = Some true.
  Hypothesis NV : 0 < c_nv c.
  Hypothesis PA : forall t f t1 f1 t2 f2, 0 <= t < c_nt c -> 0 <= f < faces d -> paired d c t f t1 f1 -> paired d c t f t2 f2 -> t1 = t2 /\ f1 = f2.
  Hypothesis LO : forall t f nt code, 0 <= t < c_nt c -> 0 <= f < faces d -> lonely d c t f ->
    zget (c_ttt c) (faces d * t + f) = Some nt -> zget (c_ttf c) (faces d * t + f) = Some code -> lonely d c nt (code mod faces d).

  Lemma has_ttv : exists ttv, c_ttv c = Some ttv.
  Proof. destruct AL as (_ & _ & _ & _ & A & _). destruct (A NV) as (l & E & _). eauto. Qed.
  Lemma fpos : 0 < faces d.
  Proof. destruct d; reflexivity. Qed.

  Lemma run ttv : c_ttv c = Some ttv -> exists r ttt ttf c2 ge gc, complete d c = Some r /\ phases d c ttv r ttt ttf c2 ge gc.
  Proof.
    intros TV. apply (complete_phases d c ttv AL VA NV TV).
    - intros [t f] y z I P Q. unfold all_faces in I. apply in_prod_iff in I as (I1 & I2). apply below_in in I1, I2.
      apply (paired_is d c ttv TV) in P, Q; auto. destruct (PA _ _ _ _ _ _ I1 I2 P Q). destruct y, z. cbn in *. congruence.
    - intros t f nt code Ht Hf L E1 E2. apply (lonely_is d c ttv TV); [apply Z.mod_pos_bound, fpos|].
      apply (LO t f nt code Ht Hf); [apply (lonely_is d c ttv TV); auto| |]; (replace (faces d * t + f) with (t * faces d + f) by lia); auto.
  Qed.

  Lemma links ttv : c_ttv c = Some ttv -> forall r ttt ttf c2 ge gc, phases d c ttv r ttt ttf c2 ge gc ->
    (forall t f t' f', 0 <= t < c_nt c -> 0 <= f < faces d -> paired d c t f t' f' -> linked d ttv (c_ttt r) (c_ttf r) (t, f) (t', f')) /\
    (forall t f, 0 <= t < c_nt c -> 0 <= f < faces d -> lonely d c t f ->
       zget (c_ttt r) (faces d * t + f) = zget (c_ttt c) (faces d * t + f) /\ zget (c_ttf r) (faces d * t + f) = zget (c_ttf c) (faces d * t + f)).
  Proof.
    intros TV r ttt ttf c2 ge gc PH. destruct (r_fields d c ttv r ttt ttf c2 ge gc PH) as (_ & _ & -> & -> & _).
    destruct (faces_done d c ttv AL) as (ttt' & ttf' & E & _ & _ & LK & UC).
    - intros [t f] y z I P Q. unfold all_faces in I. apply in_prod_iff in I as (I1 & I2). apply below_in in I1, I2.
      apply (paired_is d c ttv TV) in P, Q; auto. destruct (PA _ _ _ _ _ _ I1 I2 P Q). destruct y, z. cbn in *. congruence.
    - rewrite (ph_faces _ _ _ _ _ _ _ _ _ PH) in E. injection E as <- <-. split.
      + intros t f t' f' Ht Hf P. apply LK; [apply in_prod_iff; rewrite !below_in; auto|]. apply (paired_is d c ttv TV t f (t', f') Hf). exact P.
      + intros t f Ht Hf L. apply (UC (t, f)); [apply in_prod_iff; rewrite !below_in; auto|]. apply (lonely_is d c ttv TV); auto.
  Qed.
End Complete.

(** For a connectivity that p4est_connectivity_is_valid accepts and that has vertices: if no
    three faces have the same vertices, and no face that shares its vertices with no other face
    is linked to one that does, p4est_connectivity_complete stays inside of the arrays, and the
    result is accepted by p4est_connectivity_is_valid.  Vertices and attributes are unchanged.
    Two faces with the same vertices are linked with each other, in both directions with the
    same orientation; the other faces keep their entries. *)
Theorem C71_complete_valid : forall d c, allocated d c -> conn_is_valid d c = Some true -> 0 < c_nv c ->
  (forall t f t1 f1 t2 f2, 0 <= t < c_nt c -> 0 <= f < faces d -> paired d c t f t1 f1 -> paired d c t f t2 f2 -> t1 = t2 /\ f1 = f2) ->
  (forall t f nt code, 0 <= t < c_nt c -> 0 <= f < faces d -> lonely d c t f ->
    zget (c_ttt c) (faces d * t + f) = Some nt -> zget (c_ttf c) (faces d * t + f) = Some code -> lonely d c nt (code mod faces d)) ->
  exists r, complete d c = Some r /\ conn_is_valid d r = Some true /\
    c_nt r = c_nt c /\ c_nv r = c_nv c /\ c_vertices r = c_vertices c /\ c_ttv r = c_ttv c /\ c_attr r = c_attr c /\ c_tta r = c_tta c /\
    (forall t f t' f', 0 <= t < c_nt c -> 0 <= f < faces d -> paired d c t f t' f' ->
       exists o, 0 <= o < half d /\ leads d r t f t' f' o /\ leads d r t' f' t f o) /\
    (forall t f, 0 <= t < c_nt c -> 0 <= f < faces d -> lonely d c t f ->
       zget (c_ttt r) (faces d * t + f) = zget (c_ttt c) (faces d * t + f) /\ zget (c_ttf r) (faces d * t + f) = zget (c_ttf c) (faces d * t + f)).
Proof.
  intros d c AL VA NV PA LO. destruct (has_ttv d c AL NV) as (ttv & TV).
  destruct (run d c AL VA NV PA LO ttv TV) as (r & ttt & ttf & c2 & ge & gc & E & PH). exists r. split; [auto|]. split; [apply (ph_valid _ _ _ _ _ _ _ _ _ PH)|].
  destruct (links d c AL PA ttv TV r ttt ttf c2 ge gc PH) as (LK & UC).
  assert (FI : c_nt r = c_nt c /\ c_nv r = c_nv c /\ c_vertices r = c_vertices c /\ c_ttv r = c_ttv c /\ c_attr r = c_attr c /\ c_tta r = c_tta c).
  { destruct (ph_corners _ _ _ _ _ _ _ _ _ PH) as (_ & _ & _ & ttc & off & ts & cs & -> & _).
    pose proof (ph_edges _ _ _ _ _ _ _ _ _ PH) as PE. destruct (is3 d).
    - destruct PE as (_ & _ & _ & tte & eoff & ets & ecs & -> & _). cbn. auto 7.
    - rewrite PE. cbn. auto 7. }
  destruct FI as (F1 & F2 & F3 & F4 & F5 & F6). do 6 (split; [auto|]). split; [|exact UC].
  intros t f t' f' Ht Hf P. destruct (LK t f t' f' Ht Hf P) as (o & Ho & A1 & A2 & A3 & A4). exists o. split.
  - apply (paired_is d c ttv TV t f (t', f') Hf) in P as (_ & _ & P). destruct Ho as [-> | ->]; apply forient_spec; [|apply Permutation_sym]; auto.
  - unfold leads. unfold fidx in *. cbn [fst snd] in *. auto.
Qed.
Print Assumptions C71_complete_valid.

(** ** The orientation that the code finds *)
Lemma orient d ttv x y o r :
  0 <= snd x < faces d -> 0 <= snd y < faces d -> 0 <= o < half d -> NoDup (fverts d ttv x) -> NoDup (fverts d ttv y) ->
  (forall i, 0 <= i < half d -> vtx d ttv (fst y) (face_corners d (snd y) (face_neighbor_face_corner d i (snd x) (snd y) o)) = vtx d ttv (fst x) (face_corners d (snd x) i)) ->
  Permutation (fverts d ttv x) (fverts d ttv y) -> (r = forient d ttv x y \/ r = forient d ttv y x) -> r = o.
Proof.
  intros Hx Hy Ho NX NY M P R.
  assert (INJ : forall z i j, NoDup (fverts d ttv z) -> 0 <= i < half d -> 0 <= j < half d ->
    vtx d ttv (fst z) (face_corners d (snd z) i) = vtx d ttv (fst z) (face_corners d (snd z) j) -> i = j).
  { intros z i j N Hi Hj E. pose proof (fverts_get d ttv z i Hi) as G1. pose proof (fverts_get d ttv z j Hj) as G2. rewrite zg in G1, G2 by lia.
    assert (Z.to_nat i = Z.to_nat j); [|lia]. apply (proj1 (NoDup_nth_error _) N); [|congruence].
    pose proof (fverts_len d ttv z) as L. unfold zlen in L. lia. }
  pose proof (orient_table d) as T. tab T (snd x) Hx. tab T (snd y) Hy. tab T o Ho. apply andb_true_iff in T as (T & _). apply andb_true_iff in T as (T1 & T2).
  assert (H0 : 0 <= 0 < half d) by lia.
  assert (C1 : snd x <= snd y -> vtx d ttv (fst y) (face_corners d (snd y) o) = vtx d ttv (fst x) (face_corners d (snd x) 0)).
  { intros L. rewrite <- (M 0 H0). replace (snd x <=? snd y) with true in T1 by lia. cbn [implb] in T1. apply Z.eqb_eq in T1. rewrite T1. reflexivity. }
  assert (C2 : snd y <= snd x -> vtx d ttv (fst x) (face_corners d (snd x) o) = vtx d ttv (fst y) (face_corners d (snd y) 0)).
  { intros L. rewrite <- (M o Ho). replace (snd y <=? snd x) with true in T2 by lia. cbn [implb] in T2. apply Z.eqb_eq in T2. rewrite T2. reflexivity. }
  destruct R as [-> | ->].
  - destruct (forient_spec d ttv x y P) as (A & B). cbv zeta in B. destruct (snd x <=? snd y) eqn:L.
    + apply (INJ y); auto. rewrite B. symmetry. apply C1. lia.
    + apply (INJ x); auto. rewrite B. symmetry. apply C2. lia.
  - destruct (forient_spec d ttv y x (Permutation_sym P)) as (A & B). cbv zeta in B. destruct (snd y <=? snd x) eqn:L.
    + apply (INJ x); auto. rewrite B. symmetry. apply C2. lia.
    + apply (INJ y); auto. rewrite B. symmetry. apply C1. lia.
Qed.

(** an edge of t' with the vertices of an edge of t: end i of the edge e is end (i xor fl) of e' *)
Definition same_edge (c : conn) (t e t' e' fl : Z) : Prop :=
  0 <= t' < c_nt c /\ 0 <= e' < 12 /\ (fl = 0 \/ fl = 1) /\
  forall i, i = 0 \/ i = 1 -> vert D3 c t' (edge_corners e' (Z.lxor i fl)) = vert D3 c t (edge_corners e i).

(** the connectivity is read off its vertices: every face has distinct vertices, a face that shares them with no other is on
    the boundary, and two faces that share their vertices do so by one of the maps of faces *)
Record geometric (d : dim) (c : conn) : Prop := {
  geo_pair : forall t f t1 f1 t2 f2, 0 <= t < c_nt c -> 0 <= f < faces d -> paired d c t f t1 f1 -> paired d c t f t2 f2 -> t1 = t2 /\ f1 = f2;
  geo_boundary : forall t f, 0 <= t < c_nt c -> 0 <= f < faces d -> lonely d c t f -> leads d c t f t f 0;
  geo_distinct : forall t f, 0 <= t < c_nt c -> 0 <= f < faces d -> NoDup (face_verts d c t f);
  geo_fits : forall t f t' f', 0 <= t < c_nt c -> 0 <= f < faces d -> paired d c t f t' f' -> exists o, fits d c t f t' f' o }.

Section Neighbors.
  Variables (d : dim) (c : conn).
  Hypothesis AL : allocated d c.
  Hypothesis VA : conn_is_valid d c = Some true.
  Hypothesis NV : 0 < c_nv c.
  Hypothesis GE : geometric d c.

  Lemma geo_lonely t f nt code : 0 <= t < c_nt c -> 0 <= f < faces d -> lonely d c t f ->
    zget (c_ttt c) (faces d * t + f) = Some nt -> zget (c_ttf c) (faces d * t + f) = Some code -> lonely d c nt (code mod faces d).
  Proof.
    intros Ht Hf L E1 E2. destruct (geo_boundary _ _ GE t f Ht Hf L) as (B1 & B2). rewrite E1 in B1. rewrite E2 in B2. injection B1 as ->. injection B2 as ->.
    rewrite Z.mul_0_r, Z.add_0_l, Z.mod_small by auto. auto.
  Qed.

  Variables (ttv : list Z) (r : conn) (ttt ttf : list Z) (c2 : conn) (ge gc : list (list (Z * Z))).
  Hypothesis TV : c_ttv c = Some ttv.
  Hypothesis PH : phases d c ttv r ttt ttf c2 ge gc.
  Local Notation V t k := (vert d c t k).

  Lemma lonely_dec t f : 0 <= t < c_nt c -> 0 <= f < faces d -> (exists t' f', paired d c t f t' f') \/ lonely d c t f.
  Proof.
    intros Ht Hf. destruct (existsb (fun y => negb ((fst y =? t) && (snd y =? f)) && list_eqb (fkey d ttv (t, f)) (fkey d ttv y)) (all_faces d (c_nt c))) eqn:X.
    - left. apply existsb_exists in X as (y & Iy & Q). exists (fst y), (snd y). apply (paired_is d c ttv TV); [auto|]. apply andb_true_iff in Q as (Q1 & Q2). split; [auto|]. split; [intros ->; cbn in Q1; lia|].
      apply fkey_eq, list_eqb_eq. auto.
    - right. apply (lonely_is d c ttv TV); [auto|]. intros y (Iy & N & P). rewrite <- not_true_iff_false in X. apply X. apply existsb_exists. exists y. split; [auto|]. apply andb_true_iff. split.
      + destruct y as [a b]. cbn. destruct ((a =? t) && (b =? f)) eqn:Q; [exfalso; apply N; f_equal; lia|auto].
      + apply list_eqb_eq, fkey_eq. auto.
  Qed.

  (** the orientation in the result is the one that fits *)
  Lemma face_oriented t f t' f' : 0 <= t < c_nt c -> 0 <= f < faces d -> paired d c t f t' f' ->
    exists o, fits d c t f t' f' o /\ leads d r t f t' f' o.
  Proof.
    intros Ht Hf P. destruct (geo_fits _ _ GE t f t' f' Ht Hf P) as (o & Ho & M). exists o. split; [split; auto|].
    pose proof P as (Ht' & Hf' & _ & PM).
    destruct (links d c AL (geo_pair _ _ GE) ttv TV r ttt ttf c2 ge gc PH) as (LK & _). destruct (LK t f t' f' Ht Hf P) as (o' & Ro & A1 & A2 & A3 & A4).
    pose proof (geo_distinct _ _ GE t f Ht Hf) as N1. pose proof (geo_distinct _ _ GE t' f' Ht' Hf') as N2.
    rewrite (face_verts_is d c ttv TV) in N1, N2 by auto. rewrite !(face_verts_is d c ttv TV) in PM by auto.
    assert (o' = o); [|subst o'; unfold leads, fidx in *; cbn [fst snd] in *; auto].
    apply (orient d ttv (t, f) (t', f') o o'); auto. cbn [fst snd]. intros i Hi. pose proof (corner_face_table d) as T. tab T f Hf. tab T i Hi.
    apply andb_true_iff in T as (T & T4). apply andb_true_iff in T as (T & T3). apply andb_true_iff in T as (T1 & T2). apply Z.eqb_eq in T1.
    specialize (M (face_corners d f i) ltac:(lia) T2). unfold face_neighbor_corner in M. rewrite T1, !(vert_is d c ttv TV) in M. exact M.
  Qed.

  (** what is met through a face has the same vertex *)
  Lemma step_sound t f k t' code : 0 <= t < c_nt c -> 0 <= f < faces d -> 0 <= k < children d -> on_faceb f k = true ->
    zget (c_ttt r) (faces d * t + f) = Some t' -> zget (c_ttf r) (faces d * t + f) = Some code -> ~ (t' = t /\ code = f) ->
    0 <= t' < c_nt c /\ 0 <= face_neighbor_corner d k f (code mod faces d) (code / faces d) < children d /\
    V t' (face_neighbor_corner d k f (code mod faces d) (code / faces d)) = V t k.
  Proof.
    intros Ht Hf Hk On E1 E2 NB. destruct (lonely_dec t f Ht Hf) as [(t1 & f1 & P)|L].
    - destruct (face_oriented t f t1 f1 Ht Hf P) as (o & (Ho & M) & A1 & A2). rewrite E1 in A1. rewrite E2 in A2. injection A1 as ->. injection A2 as ->.
      destruct P as (Ht1 & Hf1 & _). pose proof (fpos d).
      assert (DM : (faces d * o + f1) mod faces d = f1 /\ (faces d * o + f1) / faces d = o).
      { rewrite (Z.mul_comm (faces d)), Z.add_comm, Z.mod_add, Z.div_add, Z.mod_small, Z.div_small by lia. lia. }
      destruct DM as [-> ->]. split; [auto|]. split; [|apply M; auto]. unfold face_neighbor_corner.
      pose proof (face_corner_table2 d) as T. tab T f Hf. tab T k Hk. rewrite On in T. cbn [implb] in T. apply andb_true_iff in T as (T & _). assert (Hi : 0 <= corner_face_corners d k f < half d) by lia. clear T.
      pose proof (orient_table d) as T. tab T f Hf. tab T f1 Hf1. tab T o Ho. apply andb_true_iff in T as (_ & T). tab T (corner_face_corners d k f) Hi.
      assert (Hj : 0 <= face_neighbor_face_corner d (corner_face_corners d k f) f f1 o < half d) by lia. clear T.
      pose proof (corner_face_table d) as T. tab T f1 Hf1. tab T (face_neighbor_face_corner d (corner_face_corners d k f) f f1 o) Hj. lia.
    - exfalso. apply NB. destruct (links d c AL (geo_pair _ _ GE) ttv TV r ttt ttf c2 ge gc PH) as (_ & UC). destruct (UC t f Ht Hf L) as (U1 & U2).
      destruct (geo_boundary _ _ GE t f Ht Hf L) as (B1 & B2). rewrite U1, B1 in E1. rewrite U2, B2 in E2. injection E1 as <-. injection E2 as <-. lia.
  Qed.

  Lemma across_face_sound t k t' k' : 0 <= t < c_nt c -> 0 <= k < children d -> across_face d r t k t' k' -> 0 <= t' < c_nt c /\ 0 <= k' < children d /\ V t' k' = V t k.
  Proof.
    intros Ht Hk (i & f & code & Hi & -> & E1 & E2 & N & ->). pose proof (corner_faces_table d) as T. tab T k Hk. tab T i Hi.
    apply (step_sound t (corner_faces d k i)); auto. apply corner_faces_range; auto.
  Qed.

  Lemma nt_same : c_nt r = c_nt c.
  Proof. apply (r_fields d c ttv r ttt ttf c2 ge gc PH). Qed.
  Lemma RV : conn_is_valid d r = Some true.
  Proof. apply (ph_valid _ _ _ _ _ _ _ _ _ PH). Qed.

  Section Edges.
    Hypothesis D3d : d = D3.
    Lemma edge_ends t e : 0 <= t < c_nt c -> 0 <= e < 12 -> vert D3 c t (edge_corners e 0) <> vert D3 c t (edge_corners e 1).
    Proof.
      intros Ht He E. subst d. assert (H02 : 0 <= 0 < 2) by lia. assert (H12 : 0 <= 1 < 2) by lia.
      assert (Hf : 0 <= edge_faces e 0 < faces D3) by (apply edge_faces_range; lia). pose proof (geo_distinct _ _ GE t _ Ht Hf) as N.
      pose proof edge_faces_table as T. tab T e He. tab T 0 H02. pose proof T as T'. tab T 0 H02. tab T' 1 H12.
      pose proof edge_corners_table as U. tab U e He. apply andb_true_iff in U as (U & NE). pose proof U as U'. tab U 0 H02. tab U' 1 H12.
      assert (G : forall k, 0 <= k < 8 -> on_faceb (edge_faces e 0) k = true -> In k (filter (on_faceb (edge_faces e 0)) (map Z.of_nat (seq 0 (Z.to_nat (children D3)))))).
      { intros k Hk On. apply filter_In. split; [|auto]. apply (below_ok 8). auto. }
      pose proof (G (edge_corners e 0) ltac:(lia) T) as G0. pose proof (G (edge_corners e 1) ltac:(lia) T') as G1.
      unfold face_verts in N. revert N G0 G1. generalize (filter (on_faceb (edge_faces e 0)) (map Z.of_nat (seq 0 (Z.to_nat (children D3))))). intros l N G0 G1.
      clear - E NE N G0 G1. apply negb_true_iff, Z.eqb_neq in NE. apply NE. clear NE. induction l as [|a l IH]; [destruct G0|]. cbn [map] in N. inversion N as [|x y N1 N2]. subst.
      destruct G0 as [G0|G0], G1 as [G1|G1]; [congruence| | |auto]; exfalso; apply N1.
      - rewrite G0, E. apply in_map. auto.
      - rewrite G1, <- E. apply in_map. auto.
    Qed.

    Lemma edges_are t e : 0 <= t < c_nt c -> 0 <= e < 12 -> exists ets, find_edge_transform r t e = Some ets /\
      forall t' e' fl, same_edge c t e t' e' fl <-> (t' = t /\ e' = e /\ fl = 0) \/ edge_across_face r t e t' e' fl \/ In (t', e', fl) ets.
    Proof.
      intros Ht He. pose proof (edge_ends t e Ht He) as NE. rewrite !(vert_is D3 c ttv TV) in NE.
      pose proof nt_same as NT. pose proof RV as RV. 
      assert (Ix : In (t, e) (all_edges (c_nt c))) by (apply in_prod_iff; rewrite !below_in; auto).
      assert (FV : forall f, 0 <= f < faces D3 -> valid_face D3 r t f = Some true).
      { subst d. destruct (conn_valid_inv _ _ RV) as (ne & nc & _ & _ & _ & _ & TVD). rewrite NT in TVD. apply (valid_tree_inv _ _ _ _ _ (TVD t Ht)). }
      destruct (edge_distinct_ok r t FV e He) as (dis & ED).
      assert (SP : forall t' e' fl, In (t', e', fl) dis <-> (t' = t /\ e' = e /\ fl = 0) \/ edge_across_face r t e t' e' fl).
      { subst d. apply edge_distinct_spec; auto. rewrite NT. auto. }
      destruct (edge_found d c ttv r ttt ttf c2 ge gc PH D3d (t, e) dis Ix NE ED) as (ets & F & S & C & _); [apply SP; auto|].
      cbn [fst snd] in *. exists ets. split; [auto|]. intros t' e' fl.
      assert (RG : In (t', e') (all_edges (c_nt c)) <-> 0 <= t' < c_nt c /\ 0 <= e' < 12) by (unfold all_edges; rewrite in_prod_iff, !below_in; reflexivity).
      split.
      - intros (Ht' & He' & Hfl & EQ). assert (EQ' : forall i, i = 0 \/ i = 1 -> vtx D3 ttv t' (edge_corners e' (Z.lxor fl i)) = vtx D3 ttv t (edge_corners e i)).
        { intros i Hi. specialize (EQ i Hi). rewrite !(vert_is D3 c ttv TV), Z.lxor_comm in EQ. exact EQ. }
        destruct (flip_key ttv (t, e) (t', e') He He' NE fl Hfl EQ') as (K & FK). destruct (pdec (t', e') (t, e)) as [E|N].
        + injection E as -> ->. left. split; [auto|]. split; [auto|]. rewrite FK. unfold flip. apply Z.lxor_nilpotent.
        + destruct (C (t', e') (proj2 RG (conj Ht' He')) N K) as [I|I]; cbn [fst snd] in I; rewrite <- FK in I; [apply SP in I; tauto|auto].
      - intros [(-> & -> & ->)|[A|I]].
        + split; [auto|]. split; [auto|]. split; [auto|]. intros i Hi. rewrite Z.lxor_0_r. auto.
        + destruct A as (i & f & code & Hi & -> & E1 & E2 & NB & He' & Hfl & EC).
          assert (ST : forall j, j = 0 \/ j = 1 -> 0 <= t' < c_nt c /\ vert D3 c t' (edge_corners e' (Z.lxor j fl)) = vert D3 c t (edge_corners e j)).
          { intros j Hj. assert (Hj' : 0 <= j < 2) by lia. rewrite (EC j Hj). pose proof edge_faces_table as T. tab T e He. tab T i Hi. tab T j Hj'.
            pose proof edge_corners_table as U. tab U e He. apply andb_true_iff in U as (U & _). tab U j Hj'.
            pose proof (step_sound t (edge_faces e i) (edge_corners e j) t' code Ht) as Q. rewrite D3d in Q. cbn [faces children] in Q.
            destruct Q as (Q1 & _ & Q2); auto; [apply edge_faces_range; auto|lia]. }
          split; [apply (ST 0); auto|]. split; [auto|]. split; [auto|]. intros j Hj. apply ST. auto.
        + destruct (S t' e' fl I) as (RI & _ & K & ->). apply RG in RI as (Ht' & He'). destruct (flip_is ttv (t, e) (t', e') He He' NE K) as (Hfl & Q).
          split; [auto|]. split; [auto|]. split; [auto|]. intros i Hi. rewrite !(vert_is D3 c ttv TV), Z.lxor_comm. apply Q. auto.
    Qed.
  End Edges.

  Lemma across_edge_sound t k t' k' : 0 <= t < c_nt c -> 0 <= k < children d -> across_edge d r t k t' k' -> 0 <= t' < c_nt c /\ 0 <= k' < children d /\ V t' k' = V t k.
  Proof.
    intros Ht Hk (D3d & _ & i & e & ae & ets & ne & nf & Hi & -> & _ & _ & F & I & ->).
    assert (Hk8 : 0 <= k < 8) by (rewrite D3d in Hk; exact Hk).
    pose proof corner_edges_table as T. tab T k Hk8. tab T i Hi. apply Z.eqb_eq in T. set (e := corner_edges k i) in *. set (w := b2z (edge_corners e 1 =? k)) in *.
    assert (He : 0 <= e < 12) by (apply corner_edges_range; auto).
    assert (Hw : w = 0 \/ w = 1) by (unfold w; destruct (edge_corners e 1 =? k); auto).
    destruct (edges_are D3d t e Ht He) as (ets' & F' & Q). rewrite F in F'. injection F' as <-.
    assert (S : same_edge c t e t' ne nf) by (apply Q; auto). destruct S as (Ht' & He' & Hf & EQ). specialize (EQ w Hw). rewrite T, Z.lxor_comm in EQ.
    split; [auto|]. rewrite D3d. split; [|exact EQ].
    assert (Hx : 0 <= Z.lxor nf w < 2) by (destruct Hf as [-> | ->], Hw as [-> | ->]; cbn; lia).
    pose proof edge_corners_table as U. tab U ne He'. apply andb_true_iff in U as (U & _). tab U (Z.lxor nf w) Hx. cbn [children]. lia.
  Qed.

  Lemma corners_are t k : 0 <= t < c_nt c -> 0 <= k < children d -> exists l, find_corner_transform d r t k = Some l /\
    (forall t' k', 0 <= t' < c_nt c /\ 0 <= k' < children d /\ V t' k' = V t k <->
       (t' = t /\ k' = k) \/ across_face d r t k t' k' \/ across_edge d r t k t' k' \/ In (t', k') l) /\
    (forall t' k', In (t', k') l -> ~ (t' = t /\ k' = k) /\ ~ across_face d r t k t' k' /\ ~ across_edge d r t k t' k').
  Proof.
    intros Ht Hk. assert (Ix : In (t, k) (all_corners d (c_nt c))) by (apply in_prod_iff; rewrite !below_in; auto).
    destruct (distinct_some d c ttv r ttt ttf c2 ge gc PH (t, k) Ix) as (dis & ED). pose proof nt_same as NT.
    assert (SP : forall t' k', In (t', k') dis <-> (t' = t /\ k' = k) \/ across_face d r t k t' k' \/ across_edge d r t k t' k').
    { unfold corner_distinct in ED. cbn [fst snd] in ED. destruct (corner_faces_distinct d r t k) as [l0|] eqn:E0; [|discriminate]. intros t' k'.
      assert (P : 0 <= c_ne r).
      { destruct (ph_corners _ _ _ _ _ _ _ _ _ PH) as (_ & _ & _ & ttc & off & ts & cs & -> & _). cbn. destruct (ph_al _ _ _ _ _ _ _ _ _ PH) as (_ & _ & Q & _). auto. }
      rewrite (edges_spec d r RV t k l0 dis ED P), (distinct_spec d r RV t k l0 ltac:(lia) Hk E0). tauto. }
    destruct (corner_found d c ttv AL VA NV TV r ttt ttf c2 ge gc PH (t, k) dis Ix ED) as (l & F & S & C & X); [apply SP; auto|]. cbn [fst snd] in *.
    exists l. split; [auto|]. split.
    - intros t' k'. split.
      + intros (Ht' & Hk' & E). rewrite !(vert_is d c ttv TV) in E. destruct (C (t', k')) as [I|I]; [apply in_prod_iff; rewrite !below_in; auto|exact E|apply SP in I; tauto|auto].
      + intros [(-> & ->)|[A|[A|I]]]; [auto|apply across_face_sound; auto|apply across_edge_sound; auto|].
        destruct (S _ I) as (RI & E). cbn [fst snd] in *. apply in_prod_iff in RI as (R1 & R2). apply below_in in R1, R2. rewrite !(vert_is d c ttv TV). auto.
    - intros t' k' I. apply X in I. rewrite SP in I. tauto.
  Qed.
End Neighbors.

(** If the connectivity is moreover read off its vertices (see [geometric]), then after
    p4est_connectivity_complete: a face is on the boundary exactly if no other face has its
    vertices, and else p4est_find_face_transform gives the face with the same vertices and the
    coordinate map for the orientation that respects them.  Two corners of trees have the same vertex exactly
    if they are equal or one is found from the other, through a face, an edge, or by
    p4est_find_corner_transform, which gives those that are not found through faces and
    edges.  Two edges have the same vertices, with a relative orientation, exactly if one is
    found from the other, with this orientation, through a face or by
    p8est_find_edge_transform. *)
Theorem C71_complete_neighbors : forall d c, allocated d c -> conn_is_valid d c = Some true -> 0 < c_nv c -> geometric d c ->
  exists r, complete d c = Some r /\ conn_is_valid d r = Some true /\
    (forall t f, 0 <= t < c_nt c -> 0 <= f < faces d ->
       (lonely d c t f <-> find_face_transform d r t f = Some None) /\
       (forall t' f' o, paired d c t f t' f' -> fits d c t f t' f' o -> find_face_transform d r t f = Some (Some (t', expand_face_transform d f f' o)))) /\
    (forall t k, 0 <= t < c_nt c -> 0 <= k < children d -> exists l, find_corner_transform d r t k = Some l /\
       (forall t' k', 0 <= t' < c_nt c /\ 0 <= k' < children d /\ vert d c t' k' = vert d c t k <->
          (t' = t /\ k' = k) \/ across_face d r t k t' k' \/ across_edge d r t k t' k' \/ In (t', k') l) /\
       (forall t' k', In (t', k') l -> ~ (t' = t /\ k' = k) /\ ~ across_face d r t k t' k' /\ ~ across_edge d r t k t' k')) /\
    (d = D3 -> forall t e, 0 <= t < c_nt c -> 0 <= e < 12 -> exists ets, find_edge_transform r t e = Some ets /\
       forall t' e' fl, same_edge c t e t' e' fl <-> (t' = t /\ e' = e /\ fl = 0) \/ edge_across_face r t e t' e' fl \/ In (t', e', fl) ets).
Proof.
  intros d c AL VA NV GE. destruct (has_ttv d c AL NV) as (ttv & TV).
  destruct (run d c AL VA NV (geo_pair _ _ GE) (geo_lonely d c GE) ttv TV) as (r & ttt & ttf & c2 & ge & gc & E & PH). exists r.
  split; [auto|]. split; [apply (ph_valid _ _ _ _ _ _ _ _ _ PH)|]. split; [|split].
  - intros t f Ht Hf. pose proof (fpos d) as FP.
    assert (PF : forall t' f' o, paired d c t f t' f' -> fits d c t f t' f' o -> find_face_transform d r t f = Some (Some (t', expand_face_transform d f f' o))).
    { intros t' f' o P F. destruct (face_oriented d c AL GE ttv r ttt ttf c2 ge gc TV PH t f t' f' Ht Hf P) as (o' & F' & A1 & A2).
      assert (o' = o).
      { (* both send corner 0 of a face to the same vertex *)
        destruct P as (Ht' & Hf' & N & PM). rewrite !(face_verts_is d c ttv TV) in PM by auto.
        pose proof (geo_distinct _ _ GE t f Ht Hf) as N1. pose proof (geo_distinct _ _ GE t' f' Ht' Hf') as N2. rewrite (face_verts_is d c ttv TV) in N1, N2 by auto.
        assert (Q : forall o, fits d c t f t' f' o -> forient d ttv (t, f) (t', f') = o); [|rewrite <- (Q o F), <- (Q o' F'); auto].
        intros o1 (Ho1 & M1). apply (orient d ttv (t, f) (t', f')); auto. cbn [fst snd]. intros i Hi. pose proof (corner_face_table d) as T. tab T f Hf. tab T i Hi.
        apply andb_true_iff in T as (T & T4). apply andb_true_iff in T as (T & T3). apply andb_true_iff in T as (T1 & T2). apply Z.eqb_eq in T1.
        specialize (M1 (face_corners d f i) ltac:(lia) T2). unfold face_neighbor_corner in M1. rewrite T1, !(vert_is d c ttv TV) in M1. exact M1. }
      subst o'. destruct P as (Ht' & Hf' & N & _). destruct F as (Ho & _). unfold find_face_transform. rewrite A1, A2.
      destruct (dim_div_mod d (faces d * o + f') ltac:(nia)) as (_ & -> & ->).
      rewrite (Z.mul_comm (faces d)), Z.add_comm, Z.mod_add, Z.div_add, Z.mod_small, Z.div_small by lia. rewrite Z.add_0_l.
      destruct ((t' =? t) && (f' =? f)) eqn:B; [lia|reflexivity]. }
    split; [|exact PF]. split.
    + intros L. destruct (links d c AL (geo_pair _ _ GE) ttv TV r ttt ttf c2 ge gc PH) as (_ & UC). destruct (UC t f Ht Hf L) as (U1 & U2).
      destruct (geo_boundary _ _ GE t f Ht Hf L) as (B1 & B2). rewrite Z.mul_0_r, Z.add_0_l in B2. unfold find_face_transform. rewrite U1, U2, B1, B2.
      destruct (dim_div_mod d f ltac:(lia)) as (_ & -> & ->). rewrite Z.mod_small by auto. rewrite !Z.eqb_refl. reflexivity.
    + intros F t' f' P. destruct (geo_fits _ _ GE t f t' f' Ht Hf P) as (o & Fo). rewrite (PF t' f' o P Fo) in F. discriminate.
  - intros t k Ht Hk. apply (corners_are d c AL VA NV GE ttv r ttt ttf c2 ge gc TV PH); auto.
  - intros D3d t e Ht He. apply (edges_are d c AL VA GE ttv r ttt ttf c2 ge gc TV PH D3d); auto.
Qed.
Print Assumptions C71_complete_neighbors.

(** ** Examples *)

(** a decision procedure for [geometric] *)
Definition fitsb (d : dim) (c : conn) (x y : Z * Z) : bool :=
  existsb (fun o => forallb (fun k => implb (on_faceb (snd x) k) (vert d c (fst y) (face_neighbor_corner d k (snd x) (snd y) o) =? vert d c (fst x) k)) (below (children d))) (below (half d)).
Fixpoint nodupb (l : list Z) : bool := match l with [] => true | x :: r => negb (existsb (Z.eqb x) r) && nodupb r end.
Lemma nodupb_ok l : nodupb l = true -> NoDup l.
Proof.
  induction l as [|x l IH]; cbn [nodupb]; intros H; constructor; [|apply IH; lia]. intros I. apply andb_true_iff in H as (H & _).
  apply negb_true_iff in H. rewrite <- not_true_iff_false in H. apply H. apply existsb_exists. exists x. split; [auto|lia].
Qed.
Definition geometricb (d : dim) (c : conn) : bool :=
  match c_ttv c with
  | None => false
  | Some ttv =>
    forallb (fun x =>
      let ps := filter (fun y => negb ((fst y =? fst x) && (snd y =? snd x)) && list_eqb (fkey d ttv x) (fkey d ttv y)) (all_faces d (c_nt c)) in
      nodupb (face_verts d c (fst x) (snd x)) &&
      match ps with
      | [] => match zget (c_ttt c) (faces d * fst x + snd x), zget (c_ttf c) (faces d * fst x + snd x) with
              | Some t, Some f => (t =? fst x) && (f =? snd x) | _, _ => false end
      | [y] => fitsb d c x y
      | _ => false
      end) (all_faces d (c_nt c))
  end.
Lemma geometricb_ok d c : geometricb d c = true -> geometric d c.
Proof.
  unfold geometricb. destruct (c_ttv c) as [ttv|] eqn:TV; [|discriminate]. intros G. rewrite forallb_forall in G.
  set (ps := fun x : Z * Z => filter (fun y => negb ((fst y =? fst x) && (snd y =? snd x)) && list_eqb (fkey d ttv x) (fkey d ttv y)) (all_faces d (c_nt c))).
  assert (PS : forall t f t' f', 0 <= f < faces d -> In (t', f') (ps (t, f)) <-> paired d c t f t' f').
  { intros t f t' f' Hf. unfold ps. rewrite filter_In, andb_true_iff, list_eqb_eq, fkey_eq, <- (face_verts_is d c ttv TV t f Hf). cbn [fst snd].
    unfold all_faces, paired. rewrite in_prod_iff, !below_in. split.
    - intros ((A & B) & N & P). rewrite <- (face_verts_is d c ttv TV t' f' B) in P. split; [auto|]. split; [auto|]. split; [lia|auto].
    - intros (A & B & N & P). rewrite (face_verts_is d c ttv TV t' f' B) in P. split; [auto|]. split; [lia|auto]. }
  assert (GX : forall t f, 0 <= t < c_nt c -> 0 <= f < faces d -> nodupb (face_verts d c t f) = true /\
    match ps (t, f) with [] => leads d c t f t f 0 | [y] => fitsb d c (t, f) y = true | _ => False end).
  { intros t f Ht Hf. assert (I : In (t, f) (all_faces d (c_nt c))) by (apply in_prod_iff; rewrite !below_in; auto). specialize (G _ I). cbv zeta in G. fold (ps (t, f)) in G. cbn [fst snd] in G.
    apply andb_true_iff in G as (G1 & G2). split; [auto|]. destruct (ps (t, f)) as [|y [|z q]]; [|auto|discriminate].
    unfold leads. destruct (zget (c_ttt c) (faces d * t + f)); [|discriminate]. destruct (zget (c_ttf c) (faces d * t + f)); [|discriminate]. split; f_equal; lia. }
  split.
  - intros t f t1 f1 t2 f2 Ht Hf P1 P2. apply PS in P1, P2; auto. destruct (GX t f Ht Hf) as (_ & M). destruct (ps (t, f)) as [|y [|z q]]; [destruct P1| |destruct M].
    destruct P1 as [->|[]]. destruct P2 as [E|[]]. injection E as <- <-. auto.
  - intros t f Ht Hf L. destruct (GX t f Ht Hf) as (_ & M). destruct (ps (t, f)) as [|y q] eqn:E; [auto|]. exfalso. apply (L (fst y) (snd y)). apply PS; auto. rewrite E. left. destruct y; auto.
  - intros t f Ht Hf. destruct (GX t f Ht Hf) as (M & _). apply nodupb_ok. auto.
  - intros t f t' f' Ht Hf P. apply PS in P; auto. destruct (GX t f Ht Hf) as (_ & M). destruct (ps (t, f)) as [|y [|z q]]; [destruct P| |destruct M]. destruct P as [->|[]].
    unfold fitsb in M. apply existsb_exists in M as (o & Io & M). apply below_in in Io. exists o. split; [auto|]. intros k Hk On. tab M k Hk. cbn [fst snd] in M. rewrite On in M. cbn [implb] in M. lia.
Qed.

(** a connectivity with given vertices and all faces on the boundary, as p4est_connectivity_read_inp_stream makes before it calls the
    function (src/p4est_connectivity.c 4483-4493) *)
Definition apart (d : dim) (nv nt : Z) (ttv : list Z) : conn :=
  mkconn nv nt 0 0 (Some (repeat 0 (Z.to_nat (3 * nv)))) (Some ttv) 0 None
    (flat_map (fun t => repeat t (Z.to_nat (faces d))) (below nt)) (flat_map (fun _ => below (faces d)) (below nt)) [] [0] [] [] [] [0] [] [].

(** the vertices of p4est_connectivity_new_moebius (2027-2071) and of p4est_connectivity_new_star
    (2074-2140): completing gives the arrays written there *)
Definition moebius : conn := apart D2 10 5 [0; 2; 1; 3;  3; 5; 2; 4;  4; 6; 5; 7;  6; 7; 9; 8;  9; 8; 1; 0].
Definition star : conn := apart D2 13 6 [0; 1; 3; 2;  0; 3; 5; 4;  5; 6; 0; 7;  8; 7; 9; 0;  9; 0; 10; 11;  12; 1; 11; 0].
(** the vertices of p8est_connectivity_new_rotcubes: src/p8est_connectivity.c 512-605 *)
Definition rotcubes : conn := apart D3 26 6 [0; 17; 3; 4; 15; 11; 13; 14;  7; 2; 6; 17; 9; 12; 8; 11;  2; 12; 5; 10; 17; 11; 4; 14;
  19; 13; 18; 14; 16; 15; 1; 11;  14; 11; 21; 25; 18; 1; 22; 23;  21; 20; 25; 24; 14; 10; 11; 12].

Ltac alloc := unfold allocated; cbn [moebius star rotcubes apart c_nv c_nt c_ne c_nc c_ttv c_ttt c_ttf c_tte c_eoff c_ett c_ete c_ttc c_coff c_ctt c_ctc];
  repeat split; try (vm_compute; congruence); try (intros _; eexists; split; reflexivity); try (intros; lia); intros; discriminate.
Example C71_example_moebius : allocated D2 moebius /\ conn_is_valid D2 moebius = Some true /\ geometric D2 moebius /\
  exists r, complete D2 moebius = Some r /\
    c_ttt r = [4; 1; 0; 0;  0; 2; 1; 1;  1; 3; 2; 2;  3; 3; 2; 4;  4; 4; 3; 0] /\
    c_ttf r = [7; 4; 2; 3;  5; 4; 2; 3;  5; 2; 2; 3;  0; 1; 1; 2;  0; 1; 3; 4] /\ c_nc r = 0.
Proof.
  split; [alloc|]. split; [vm_compute; reflexivity|]. split; [apply geometricb_ok; vm_compute; reflexivity|].
  eexists. split; [vm_compute; reflexivity|]. repeat split.
Qed.
Example C71_example_star : allocated D2 star /\ conn_is_valid D2 star = Some true /\ geometric D2 star /\
  exists r, complete D2 star = Some r /\
    c_ttf r = [2; 1; 5; 3;  4; 1; 0; 3;  4; 1; 2; 5;  0; 7; 2; 2;  0; 7; 3; 3;  0; 6; 2; 5] /\
    c_nc r = 1 /\ c_ctt r = [0; 1; 2; 3; 4; 5] /\ c_ctc r = [0; 0; 2; 3; 1; 3] /\
    find_corner_transform D2 r 0 0 = Some [(2, 2); (3, 3); (4, 1)].
Proof.
  split; [alloc|]. split; [vm_compute; reflexivity|]. split; [apply geometricb_ok; vm_compute; reflexivity|].
  eexists. split; [vm_compute; reflexivity|]. repeat split.
Qed.
(** edges are numbered in another order, and with the flips of an edge reversed, than in the source *)
Example C71_example_rotcubes : allocated D3 rotcubes /\ conn_is_valid D3 rotcubes = Some true /\ geometric D3 rotcubes /\
  exists r, complete D3 rotcubes = Some r /\
    c_ttf r = [0; 5; 2; 3; 4; 13;  0; 2; 2; 3; 4; 5;  0; 23; 1; 3; 4; 1;  0; 17; 2; 8; 4; 5;  0; 1; 9; 3; 12; 5;  16; 1; 2; 3; 4; 19] /\
    c_eoff r = [0; 3; 8; 11] /\ c_ett r = [0; 1; 2;  0; 2; 3; 4; 5;  1; 2; 5] /\ c_ete r = [21; 23; 14;  7; 7; 23; 12; 18;  19; 21; 3] /\
    c_ctt r = [0; 1; 2; 3; 4; 5] /\ c_ctc r = [5; 7; 5; 7; 1; 6] /\ same_edge rotcubes 0 9 1 11 0 /\ find_edge_transform r 0 9 = Some [(1, 11, 0)].
Proof.
  split; [alloc|]. split; [vm_compute; reflexivity|]. split; [apply geometricb_ok; vm_compute; reflexivity|].
  eexists. split; [vm_compute; reflexivity|]. split; [reflexivity|]. split; [reflexivity|]. split; [reflexivity|]. split; [reflexivity|]. split; [reflexivity|]. split; [reflexivity|].
  split; [|vm_compute; reflexivity]. unfold same_edge. split; [cbn; lia|]. split; [lia|]. split; [auto|]. intros i [-> | ->]; vm_compute; reflexivity.
Qed.

(** ** Refutations *)

(** The header says that periodicity that is not inherent in the list of vertices will be lost.  The code does not reset
    the entries of faces: the unit square with left and right glued, with four vertices, stays periodic. *)
Definition ring : conn :=
  mkconn 4 1 0 0 (Some (repeat 0 12)) (Some [0; 1; 2; 3]) 0 None [0; 0; 0; 0] [1; 0; 2; 3] [] [0] [] [] [] [0] [] [].
Theorem C71_periodicity_lost_refuted : exists d c r t f, allocated d c /\ conn_is_valid d c = Some true /\ 0 < c_nv c /\
  0 <= t < c_nt c /\ 0 <= f < faces d /\ lonely d c t f /\ complete d c = Some r /\ find_face_transform d r t f <> Some None.
Proof.
  eexists D2, ring, _, 0, 0. split.
  { unfold allocated; cbn [ring c_nv c_nt c_ne c_nc c_ttv c_ttt c_ttf c_tte c_eoff c_ett c_ete c_ttc c_coff c_ctt c_ctc].
    repeat split; try (vm_compute; congruence); try (intros _; eexists; split; reflexivity); try (intros; lia); intros; discriminate. }
  split; [vm_compute; reflexivity|]. split; [reflexivity|]. split; [cbn; lia|]. split; [cbn; lia|]. split.
  { intros t' f' (A & B & N & P). cbn [ring c_nt faces] in A, B. assert (t' = 0) by lia. subst t'.
    assert (E : face_verts D2 ring 0 0 = [0; 2]) by reflexivity. rewrite E in P.
    assert (F : f' = 0 \/ f' = 1 \/ f' = 2 \/ f' = 3) by lia. destruct F as [-> | [-> | [-> | ->]]]; [apply N; auto| | |].
    - apply (Permutation_in 0) in P; [|cbn; auto]. vm_compute in P. intuition discriminate.
    - apply (Permutation_in 2) in P; [|cbn; auto]. vm_compute in P. intuition discriminate.
    - apply (Permutation_in 0) in P; [|cbn; auto]. vm_compute in P. intuition discriminate. }
  split; [vm_compute; reflexivity|]. vm_compute. discriminate.
Qed.
Print Assumptions C71_periodicity_lost_refuted.

(** Faces that shared their vertices with no other keep their entries even if they were linked to a face that is linked anew.
    Three trees: the right face of tree 0 was linked to the left face of tree 1; by its vertices it belongs to the left face of tree 2.
    The input is valid and the result is not: the header promises nothing else about the previous links than that they are overwritten. *)
Definition relinked : conn :=
  mkconn 10 3 0 0 (Some (repeat 0 30)) (Some [0; 1; 2; 3;  4; 5; 6; 7;  1; 8; 3; 9]) 0 None [0; 1; 0; 0;  0; 1; 1; 1;  2; 2; 2; 2] [0; 0; 2; 3;  1; 1; 2; 3;  0; 1; 2; 3]
    [] [0] [] [] [] [0] [] [].
Theorem C71_valid_stays_valid_refuted : exists d c r, allocated d c /\ conn_is_valid d c = Some true /\ 0 < c_nv c /\
  (forall t f t1 f1 t2 f2, 0 <= t < c_nt c -> 0 <= f < faces d -> paired d c t f t1 f1 -> paired d c t f t2 f2 -> t1 = t2 /\ f1 = f2) /\
  complete d c = Some r /\ conn_is_valid d r = Some false.
Proof.
  eexists D2, relinked, _. split.
  { unfold allocated; cbn [relinked c_nv c_nt c_ne c_nc c_ttv c_ttt c_ttf c_tte c_eoff c_ett c_ete c_ttc c_coff c_ctt c_ctc].
    repeat split; try (vm_compute; congruence); try (intros _; eexists; split; reflexivity); try (intros; lia); intros; discriminate. }
  split; [vm_compute; reflexivity|]. split; [reflexivity|]. split.
  { assert (G : geometric D2 (apart D2 10 3 [0; 1; 2; 3;  4; 5; 6; 7;  1; 8; 3; 9])) by (apply geometricb_ok; vm_compute; reflexivity).
    exact (geo_pair _ _ G). }
  split; [vm_compute; reflexivity|]. vm_compute. reflexivity.
Qed.
Print Assumptions C71_valid_stays_valid_refuted.
