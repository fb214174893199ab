(** * Lemmas on renumbered trees *)

From Coq Require Import ZArith List Bool Lia ZifyBool.
From Verif Require Import Quad Spec Morton Neighbor Transform Partition Conn ConnLemmas ConnBounds PropertiesConn CompareLemmas Permute.
Import ListNotations.
Open Scope Z_scope.

(** ** Renumbered connectivities *)

(** The tree t of c is the tree sg t of c'; everything else is the same. *)
Record renumbered (d : dim) (sg : Z -> Z) (c c' : conn) : Prop := {
  r_nv : c_nv c' = c_nv c; r_nt : c_nt c' = c_nt c; r_ne : c_ne c' = c_ne c; r_nc : c_nc c' = c_nc c;
  r_vertices : c_vertices c' = c_vertices c;
  r_ttv : forall t k, 0 <= t < c_nt c -> 0 <= k < children d -> oget (c_ttv c') (children d * sg t + k) = oget (c_ttv c) (children d * t + k);
  r_null : is_null (c_ttv c') = is_null (c_ttv c);
  r_attr : c_attr c' = c_attr c; r_tta : is_null (c_tta c') = is_null (c_tta c);
  r_ttt : forall t f, 0 <= t < c_nt c -> 0 <= f < faces d -> zget (c_ttt c') (faces d * sg t + f) = option_map sg (zget (c_ttt c) (faces d * t + f));
  r_ttf : forall t f, 0 <= t < c_nt c -> 0 <= f < faces d -> zget (c_ttf c') (faces d * sg t + f) = zget (c_ttf c) (faces d * t + f);
  r_tte : d = D3 -> 0 < c_ne c -> forall t e, 0 <= t < c_nt c -> 0 <= e < 12 -> zget (c_tte c') (12 * sg t + e) = zget (c_tte c) (12 * t + e);
  r_eoff : c_eoff c' = c_eoff c;
  r_ett : d = D3 -> 0 < c_ne c -> forall n, zget (c_eoff c) (c_ne c) = Some n -> forall j, 0 <= j < n -> zget (c_ett c') j = option_map sg (zget (c_ett c) j);
  r_ett0 : c_ne c <= 0 -> c_ett c' = c_ett c;
  r_ete : c_ete c' = c_ete c;
  r_ttc : 0 < c_nc c -> forall t k, 0 <= t < c_nt c -> 0 <= k < children d -> zget (c_ttc c') (children d * sg t + k) = zget (c_ttc c) (children d * t + k);
  r_coff : c_coff c' = c_coff c;
  r_ctt : 0 < c_nc c -> forall n, zget (c_coff c) (c_nc c) = Some n -> forall j, 0 <= j < n -> zget (c_ctt c') j = option_map sg (zget (c_ctt c) j);
  r_ctt0 : c_nc c <= 0 -> c_ctt c' = c_ctt c;
  r_ctc : c_ctc c' = c_ctc c }.

Section Renumber.
  Variables (d : dim) (sg : Z -> Z) (c c' : conn).
  Hypothesis inj : forall a b, sg a = sg b -> a = b.
  Hypothesis rng : forall a, 0 <= sg a < c_nt c <-> 0 <= a < c_nt c.
  Hypothesis onto : forall a, 0 <= a < c_nt c -> exists t, sg t = a.
  Hypothesis R : renumbered d sg c c'.
  Hypothesis V : conn_is_valid d c = Some true.
  Hypothesis PE : 0 <= c_ne c.
  Hypothesis PC : 0 <= c_nc c.

  Lemma sg_eqb a b : (sg a =? sg b) = (a =? b).
  Proof.
    destruct (a =? b) eqn:E; [assert (a = b) by lia; subst; apply Z.eqb_refl|].
    destruct (sg a =? sg b) eqn:F; [|reflexivity]. assert (sg a = sg b) as X by lia. apply inj in X. lia.
  Qed.

  (** *** Faces *)
  Definition ren_face (x : Z * ftrans) : Z * ftrans := (sg (fst x), snd x).
  Lemma find_face_ren t f : 0 <= t < c_nt c -> 0 <= f < faces d ->
    find_face_transform d c' (sg t) f = option_map (option_map ren_face) (find_face_transform d c t f).
  Proof.
    intros Ht Hf. unfold find_face_transform.
    replace (sg t * faces d + f) with (faces d * sg t + f) by lia. replace (t * faces d + f) with (faces d * t + f) by lia.
    rewrite (r_ttt _ _ _ _ R t f Ht Hf), (r_ttf _ _ _ _ R t f Ht Hf).
    destruct (zget (c_ttt c) (faces d * t + f)) as [nt|]; [|reflexivity]. cbn [option_map].
    destruct (zget (c_ttf c) (faces d * t + f)) as [code|]; [|reflexivity]. cbv zeta. rewrite sg_eqb.
    destruct ((nt =? t) && (Z.rem code (faces d) =? f)); reflexivity.
  Qed.

  (** *** Edges *)
  Definition ren3 (x : Z * Z * Z) : Z * Z * Z := (sg (fst (fst x)), snd (fst x), snd x).
  Definition ren2 (x : Z * Z) : Z * Z := (sg (fst x), snd x).
  Lemma mem_triple_ren x l : mem_triple (ren3 x) (map ren3 l) = mem_triple x l.
  Proof. unfold mem_triple. cbn [ren3 fst snd]. induction l as [|y l IH]; cbn [map existsb ren3 fst snd]; [reflexivity|]. rewrite sg_eqb, IH. reflexivity. Qed.
  Lemma add_triple_ren x l : add_triple (ren3 x) (map ren3 l) = map ren3 (add_triple x l).
  Proof. unfold add_triple. rewrite mem_triple_ren. destruct (mem_triple x l); [reflexivity|]. rewrite map_app. reflexivity. Qed.
  Lemma mem_pair_ren x l : mem_pair (ren2 x) (map ren2 l) = mem_pair x l.
  Proof. unfold mem_pair. cbn [ren2 fst snd]. induction l as [|y l IH]; cbn [map existsb ren2 fst snd]; [reflexivity|]. rewrite sg_eqb, IH. reflexivity. Qed.
  Lemma add_pair_ren x l : add_pair (ren2 x) (map ren2 l) = map ren2 (add_pair x l).
  Proof. unfold add_pair. rewrite mem_pair_ren. destruct (mem_pair x l); [reflexivity|]. rewrite map_app. reflexivity. Qed.

  Lemma fold_ren {A} (rho : A -> A) (g g' : option (list A) -> Z -> option (list A)) : forall is,
    (forall i l, In i is -> g' (Some (map rho l)) i = option_map (map rho) (g (Some l) i)) ->
    (forall i, g None i = None) -> (forall i, g' None i = None) ->
    forall l, fold_left g' is (Some (map rho l)) = option_map (map rho) (fold_left g is (Some l)).
  Proof.
    induction is as [|i is IH]; intros H N N' l; cbn [fold_left]; [reflexivity|].
    rewrite H by (left; auto). destruct (g (Some l) i) as [l1|]; cbn [option_map].
    - apply IH; auto. intros j l2 I. apply H. right. auto.
    - clear - N N'. assert (A1 : fold_left g' is None = None) by (clear - N'; induction is as [|j js IHj]; cbn [fold_left]; [auto|rewrite N'; auto]).
      assert (A2 : fold_left g is None = None) by (clear - N; induction is as [|j js IHj]; cbn [fold_left]; [auto|rewrite N; auto]). rewrite A1, A2. reflexivity.
  Qed.

  Lemma edge_distinct_ren t e : d = D3 -> 0 <= t < c_nt c -> 0 <= e < 12 ->
    edge_distinct c' (sg t) e = option_map (map ren3) (edge_distinct c t e).
  Proof.
    intros D Ht He. unfold edge_distinct. change [(sg t, e, 0)] with (map ren3 [(t, e, 0)]). apply fold_ren; [|auto|auto].
    intros i l I. assert (Hi : 0 <= i < 2) by (cbn in I; lia). cbv zeta.
    assert (FR : 0 <= edge_faces e i < faces d) by (rewrite D; apply edge_faces_range; auto).
    assert (F6 : faces d = 6) by (rewrite D; reflexivity).
    pose proof (r_ttt _ _ _ _ R t _ Ht FR) as E1. pose proof (r_ttf _ _ _ _ R t _ Ht FR) as E2. rewrite F6 in E1, E2. rewrite E1, E2.
    destruct (zget (c_ttt c) (6 * t + edge_faces e i)) as [nt|]; [|reflexivity]. cbn [option_map].
    destruct (zget (c_ttf c) (6 * t + edge_faces e i)) as [code|]; [|reflexivity]. rewrite sg_eqb.
    destruct (negb (nt =? t) || negb (code =? edge_faces e i)); [|reflexivity].
    destruct (negb (in_range code 0 24)); [reflexivity|]. cbn [option_map]. rewrite <- add_triple_ren. reflexivity.
  Qed.
  Lemma find_self_ren t e : forall l i, find_self (sg t) e (map ren2 l) i = find_self t e l i.
  Proof.
    induction l as [|(nt & re) l IH]; intros i; cbn [map ren2 find_self fst snd]; [reflexivity|]. rewrite sg_eqb, IH. reflexivity.
  Qed.
  Lemma edge_collect_ren dis k fl : forall l i, edge_collect (map ren3 dis) k fl (map ren2 l) i = map ren3 (edge_collect dis k fl l i).
  Proof.
    induction l as [|(nt & re) l IH]; intros i; cbn [map ren2 edge_collect fst snd]; [reflexivity|]. rewrite IH.
    change (sg nt, Z.rem re 12, Z.lxor (Z.quot re 12) fl) with (ren3 (nt, Z.rem re 12, Z.lxor (Z.quot re 12) fl)). rewrite mem_triple_ren.
    destruct (i =? k); [reflexivity|]. destruct (mem_triple _ dis); reflexivity.
  Qed.
  Lemma zslice_ren (l l' : list Z) N : (forall j, 0 <= j < N -> zget l' j = option_map sg (zget l j)) ->
    forall n i, 0 <= i -> i + Z.of_nat n <= N -> zslice l' i n = option_map (map sg) (zslice l i n).
  Proof.
    intros H. induction n as [|n IH]; intros i Hi Hn; cbn [zslice]; [reflexivity|]. rewrite H by lia. rewrite IH by lia.
    destruct (zget l i), (zslice l (i + 1) n); reflexivity.
  Qed.
  Lemma combine_ren (l m : list Z) : combine (map sg l) m = map ren2 (combine l m).
  Proof. revert m. induction l as [|x l IH]; intros [|y m]; cbn; [auto..|]. rewrite IH. reflexivity. Qed.

  Lemma find_edge_ren t e : d = D3 -> 0 <= t < c_nt c -> 0 <= e < 12 ->
    find_edge_transform c' (sg t) e = option_map (map ren3) (find_edge_transform c t e).
  Proof.
    intros D Ht He. unfold find_edge_transform. rewrite (r_ne _ _ _ _ R), (r_eoff _ _ _ _ R), (r_ete _ _ _ _ R).
    destruct (c_ne c =? 0) eqn:N0; [reflexivity|]. assert (PE' : 0 < c_ne c) by lia. rewrite (r_tte _ _ _ _ R D PE' t e Ht He).
    destruct (zget (c_tte c) (12 * t + e)) as [ae|] eqn:EA; [|reflexivity]. destruct (ae =? -1) eqn:N1; [reflexivity|].
    destruct (conn_valid_inv _ _ V) as (ne & nc & NE & _ & EV & _ & TV). destruct (valid_tree_inv _ _ _ _ _ (TV t Ht)) as (_ & _ & KV & _).
    destruct (valid_edge_true _ _ _ _ (KV D PE' e He)) as (ae' & E1 & _ & K). replace (t * 12 + e) with (12 * t + e) in E1 by lia. rewrite EA in E1. injection E1 as <-.
    destruct K as [|(b & e0 & flip & Eb & Ee & Rb & Re & _)]; [lia|]. rewrite Eb, Ee. rewrite edge_distinct_ren by auto.
    destruct (edge_distinct c t e) as [dis|]; [|reflexivity]. cbn [option_map].
    assert (ZS : zslice (c_ett c') b (Z.to_nat (e0 - b)) = option_map (map sg) (zslice (c_ett c) b (Z.to_nat (e0 - b)))).
    { destruct (Z_le_gt_dec e0 b); [replace (Z.to_nat (e0 - b)) with O by lia; reflexivity|].
      apply (zslice_ren _ _ ne); [|lia|lia]. apply (r_ett _ _ _ _ R D PE' ne). auto. }
    rewrite ZS. destruct (zslice (c_ett c) b (Z.to_nat (e0 - b))) as [ts|]; [|reflexivity]. cbn [option_map].
    destruct (zslice (c_ete c) b (Z.to_nat (e0 - b))) as [es|]; [|reflexivity]. cbv zeta. rewrite combine_ren, find_self_ren.
    destruct (find_self t e (combine ts es) 0) as (k & fl). rewrite edge_collect_ren. reflexivity.
  Qed.

  (** *** Corners *)
  Lemma faces_distinct_ren t k : 0 <= t < c_nt c -> 0 <= k < children d ->
    corner_faces_distinct d c' (sg t) k = option_map (map ren2) (corner_faces_distinct d c t k).
  Proof.
    intros Ht Hk. unfold corner_faces_distinct. change [(sg t, k)] with (map ren2 [(t, k)]). apply fold_ren; [|auto|auto].
    intros i l I. assert (Hi : 0 <= i < nd d) by (clear - I; destruct d; cbn in I |- *; lia). cbv zeta.
    pose proof (corner_faces_range d k i Hk Hi) as FR.
    rewrite (r_ttt _ _ _ _ R t _ Ht FR), (r_ttf _ _ _ _ R t _ Ht FR).
    destruct (zget (c_ttt c) (faces d * t + corner_faces d k i)) as [nt|]; [|reflexivity]. cbn [option_map].
    destruct (zget (c_ttf c) (faces d * t + corner_faces d k i)) as [code|]; [|reflexivity]. rewrite sg_eqb.
    destruct (negb (nt =? t) || negb (code =? corner_faces d k i)); [|reflexivity].
    destruct (negb (in_range code 0 (faces d * half d))); [reflexivity|]. cbn [option_map]. rewrite <- add_pair_ren. reflexivity.
  Qed.
  Lemma add_edge_corners_ren w : forall ets l, add_edge_corners (map ren3 ets) w (map ren2 l) = option_map (map ren2) (add_edge_corners ets w l).
  Proof.
    induction ets as [|((nt & ne) & nf) ets IH]; intros l; cbn [map ren3 add_edge_corners fst snd]; [reflexivity|].
    destruct (edge_corner ne (Z.lxor nf w)) as [nc|]; [|reflexivity]. change (sg nt, nc) with (ren2 (nt, nc)). rewrite add_pair_ren. apply IH.
  Qed.
  Lemma edges_distinct_ren t k l : d = D3 -> 0 <= t < c_nt c -> 0 <= k < 8 ->
    corner_edges_distinct c' (sg t) k (map ren2 l) = option_map (map ren2) (corner_edges_distinct c t k l).
  Proof.
    intros D Ht Hk. unfold corner_edges_distinct. rewrite (r_ne _ _ _ _ R). destruct (c_ne c =? 0) eqn:N0; [reflexivity|]. assert (PE' : 0 < c_ne c) by lia.
    apply fold_ren; [|auto|auto]. intros i l1 I. assert (Hi : 0 <= i < 3) by (cbn in I; lia). cbv zeta.
    pose proof (corner_edges_range k i Hk Hi) as ER. rewrite (r_tte _ _ _ _ R D PE' t _ Ht ER).
    destruct (zget (c_tte c) (12 * t + corner_edges k i)) as [ae|]; [|reflexivity]. destruct (ae =? -1); [reflexivity|].
    rewrite find_edge_ren by auto. destruct (find_edge_transform c t (corner_edges k i)) as [ets|]; [|reflexivity]. cbn [option_map].
    apply add_edge_corners_ren.
  Qed.
  Lemma filter_ren dis l : filter (fun x => negb (mem_pair x (map ren2 dis))) (map ren2 l) = map ren2 (filter (fun x => negb (mem_pair x dis)) l).
  Proof. induction l as [|x l IH]; cbn [map filter]; [reflexivity|]. rewrite mem_pair_ren, IH. destruct (mem_pair x dis); reflexivity. Qed.

  Lemma find_corner_ren t k : 0 <= t < c_nt c -> 0 <= k < children d ->
    find_corner_transform d c' (sg t) k = option_map (map ren2) (find_corner_transform d c t k).
  Proof.
    intros Ht Hk. unfold find_corner_transform. rewrite (r_nc _ _ _ _ R), (r_coff _ _ _ _ R), (r_ctc _ _ _ _ R).
    destruct (c_nc c =? 0) eqn:N0; [reflexivity|]. assert (PC' : 0 < c_nc c) by lia. rewrite (r_ttc _ _ _ _ R PC' t k Ht Hk).
    destruct (zget (c_ttc c) (children d * t + k)) as [ac|] eqn:EA; [|reflexivity]. destruct (ac =? -1) eqn:N1; [reflexivity|].
    destruct (conn_valid_inv _ _ V) as (ne & nc & _ & NC & _ & _ & TV). destruct (valid_tree_inv _ _ _ _ _ (TV t Ht)) as (_ & _ & _ & _ & KV).
    destruct (valid_corner_true _ _ _ _ _ (KV PC' k Hk)) as (ac' & E1 & _ & K). replace (t * children d + k) with (children d * t + k) in E1 by lia.
    rewrite EA in E1. injection E1 as <-.
    destruct K as [|(b & e0 & Eb & Ee & Rb & Re & _)]; [lia|]. rewrite Eb, Ee. rewrite faces_distinct_ren by auto.
    destruct (corner_faces_distinct d c t k) as [dis0|]; [|reflexivity]. cbn [option_map].
    assert (DD : (if is3 d then corner_edges_distinct c' (sg t) k (map ren2 dis0) else Some (map ren2 dis0)) =
      option_map (map ren2) (if is3 d then corner_edges_distinct c t k dis0 else Some dis0)).
    { assert (A : d = D2 \/ d = D3) by (clear; destruct d; auto). destruct A as [A|A].
      - rewrite A. reflexivity.
      - replace (is3 d) with true by (rewrite A; reflexivity). apply edges_distinct_ren; auto. rewrite A in Hk. exact Hk. }
    rewrite DD. destruct (if is3 d then corner_edges_distinct c t k dis0 else Some dis0) as [dis|]; [|reflexivity]. cbn [option_map].
    assert (ZS : zslice (c_ctt c') b (Z.to_nat (e0 - b)) = option_map (map sg) (zslice (c_ctt c) b (Z.to_nat (e0 - b)))).
    { destruct (Z_le_gt_dec e0 b); [replace (Z.to_nat (e0 - b)) with O by lia; reflexivity|].
      apply (zslice_ren _ _ nc); [|lia|lia]. apply (r_ctt _ _ _ _ R PC' nc). auto. }
    rewrite ZS. destruct (zslice (c_ctt c) b (Z.to_nat (e0 - b))) as [ts|]; [|reflexivity]. cbn [option_map].
    destruct (zslice (c_ctc c) b (Z.to_nat (e0 - b))) as [cs|]; [|reflexivity]. rewrite combine_ren. cbn [option_map]. f_equal. apply filter_ren.
  Qed.

  (** *** p4est_connectivity_is_valid *)
  Lemma face_ren t f : 0 <= t < c_nt c -> 0 <= f < faces d -> valid_face d c' (sg t) f = Some true.
  Proof.
    intros Ht Hf. destruct (conn_valid_inv _ _ V) as (ne & nc & _ & _ & _ & _ & TV). destruct (valid_tree_inv _ _ _ _ _ (TV t Ht)) as (FV & _).
    destruct (valid_face_true _ _ _ _ (FV f Hf)) as (nt & code & E1 & E2 & Rn & Rc & K).
    replace (t * faces d + f) with (faces d * t + f) in * by lia.
    assert (Fp : 0 < faces d) by (clear; destruct d; cbn; lia).
    unfold valid_face. replace (sg t * faces d + f) with (faces d * sg t + f) by lia.
    rewrite (r_ttt _ _ _ _ R t f Ht Hf), (r_ttf _ _ _ _ R t f Ht Hf), E1, E2. cbn [option_map with_]. rewrite (r_nt _ _ _ _ R).
    rewrite (proj2 (range_true _ _ _) (proj2 (rng nt) Rn)), (proj2 (range_true _ _ _) Rc). cbn [andthen]. rewrite sg_eqb.
    destruct K as [(-> & ->)|(N & B1 & B2)].
    - rewrite Z.mod_small, Z.div_small by lia. rewrite !Z.eqb_refl. reflexivity.
    - replace ((nt =? t) && (code mod faces d =? f)) with false by lia. cbn [andb negb andthen].
      replace (negb (nt =? t) || negb (code mod faces d =? f)) with true by lia.
      pose proof (Z.mod_pos_bound code _ Fp) as MB.
      replace (sg nt * faces d + code mod faces d) with (faces d * sg nt + code mod faces d) by lia.
      replace (nt * faces d + code mod faces d) with (faces d * nt + code mod faces d) in B1, B2 by lia.
      rewrite (r_ttt _ _ _ _ R nt _ Rn MB), (r_ttf _ _ _ _ R nt _ Rn MB), B1, B2. cbn [option_map with_]. rewrite !Z.eqb_refl. reflexivity.
  Qed.
  Lemma edge_loop_ren N t e ae : d = D3 -> 0 < c_ne c -> zget (c_eoff c) (c_ne c) = Some N -> forall n i fl, 0 <= i -> i + Z.of_nat n <= N ->
    edge_loop c' (sg t) e ae n i fl = edge_loop c t e ae n i fl.
  Proof.
    intros D PE' NE. destruct (conn_valid_inv _ _ V) as (ne & nc & NE' & _ & EV & _ & _). rewrite (NE' D) in NE. injection NE as <-.
    induction n as [|n IH]; intros i fl Hi Hn; cbn [edge_loop]; [reflexivity|].
    rewrite (r_ett _ _ _ _ R D PE' ne (NE' D) i ltac:(lia)), (r_ete _ _ _ _ R).
    destruct (valid_pair_inv _ _ _ _ _ (EV D i ltac:(lia))) as (t1 & x & E1 & E2 & R1 & R2). rewrite E1, E2. cbn [option_map].
    assert (RM : 0 <= Z.rem x 12 < 12) by (rewrite Z.rem_mod_nonneg by lia; apply Z.mod_pos_bound; lia).
    replace (sg t1 * 12 + Z.rem x 12) with (12 * sg t1 + Z.rem x 12) by lia. replace (t1 * 12 + Z.rem x 12) with (12 * t1 + Z.rem x 12) by lia.
    rewrite (r_tte _ _ _ _ R D PE' t1 _ R1 RM). destruct (zget (c_tte c) (12 * t1 + Z.rem x 12)) as [y|]; [|reflexivity].
    destruct (negb (y =? ae)); [reflexivity|]. cbv zeta. rewrite sg_eqb, !IH by lia. reflexivity.
  Qed.
  Lemma corner_loop_ren N t k ac : 0 < c_nc c -> zget (c_coff c) (c_nc c) = Some N -> forall n i fl, 0 <= i -> i + Z.of_nat n <= N ->
    corner_loop d c' (sg t) k ac n i fl = corner_loop d c t k ac n i fl.
  Proof.
    intros PC' NC. destruct (conn_valid_inv _ _ V) as (ne & nc & _ & NC' & _ & CV & _). rewrite NC' in NC. injection NC as <-.
    induction n as [|n IH]; intros i fl Hi Hn; cbn [corner_loop]; [reflexivity|].
    rewrite (r_ctt _ _ _ _ R PC' nc NC' i ltac:(lia)), (r_ctc _ _ _ _ R).
    destruct (valid_pair_inv _ _ _ _ _ (CV i ltac:(lia))) as (t1 & x & E1 & E2 & R1 & R2). rewrite E1, E2. cbn [option_map].
    replace (sg t1 * children d + x) with (children d * sg t1 + x) by lia. replace (t1 * children d + x) with (children d * t1 + x) by lia.
    rewrite (r_ttc _ _ _ _ R PC' t1 _ R1 R2). destruct (zget (c_ttc c) (children d * t1 + x)) as [y|]; [|reflexivity].
    destruct (negb (y =? ac)); [reflexivity|]. rewrite sg_eqb, !IH by lia. reflexivity.
  Qed.
  Lemma edge_ren ne t e : d = D3 -> 0 < c_ne c -> zget (c_eoff c) (c_ne c) = Some ne -> 0 <= t < c_nt c -> 0 <= e < 12 ->
    valid_edge c ne t e = Some true -> valid_edge c' ne (sg t) e = Some true.
  Proof.
    intros D PE' NE Ht He VE. pose proof (valid_edge_true _ _ _ _ VE) as K. unfold valid_edge in *. rewrite find_edge_ren by auto.
    destruct (find_edge_transform c t e) as [ets|]; [|discriminate]. cbn [option_map].
    replace (sg t * 12 + e) with (12 * sg t + e) by lia. rewrite (r_tte _ _ _ _ R D PE' t e Ht He). replace (12 * t + e) with (t * 12 + e) by lia.
    rewrite (r_ne _ _ _ _ R), (r_eoff _ _ _ _ R). destruct K as (ae & E1 & _ & K). rewrite E1 in *. cbn [with_] in *.
    destruct (in_range ae (-1) (c_ne c)); [|exact VE]. cbn [andthen] in *. destruct (ae =? -1) eqn:N1; [auto|].
    destruct K as [|(b & e0 & flip & Eb & Ee & Rb & Re & _)]; [lia|]. rewrite Eb, Ee in *. cbn [with_] in *.
    destruct (in_range b 0 ne && in_range e0 0 (ne + 1)); [|exact VE]. cbn [andthen] in *.
    destruct (Z_le_gt_dec e0 b); [replace (Z.to_nat (e0 - b)) with O in * by lia; exact VE|].
    rewrite (edge_loop_ren ne); auto; lia.
  Qed.
  Lemma corner_ren nc t k : 0 < c_nc c -> zget (c_coff c) (c_nc c) = Some nc -> 0 <= t < c_nt c -> 0 <= k < children d ->
    valid_corner d c nc t k = Some true -> valid_corner d c' nc (sg t) k = Some true.
  Proof.
    intros PC' NC Ht Hk VC. pose proof (valid_corner_true _ _ _ _ _ VC) as K. unfold valid_corner in *. rewrite find_corner_ren by auto.
    destruct (find_corner_transform d c t k) as [cts|]; [|discriminate]. cbn [option_map].
    replace (sg t * children d + k) with (children d * sg t + k) by lia. rewrite (r_ttc _ _ _ _ R PC' t k Ht Hk).
    replace (children d * t + k) with (t * children d + k) by lia.
    rewrite (r_nc _ _ _ _ R), (r_coff _ _ _ _ R). destruct K as (ac & E1 & _ & K). rewrite E1 in *. cbn [with_] in *.
    destruct (in_range ac (-1) (c_nc c)); [|exact VC]. cbn [andthen] in *. destruct (ac =? -1) eqn:N1; [auto|].
    destruct K as [|(b & e0 & Eb & Ee & Rb & Re & _)]; [lia|]. rewrite Eb, Ee in *. cbn [with_] in *.
    destruct (in_range b 0 nc && in_range e0 0 (nc + 1)); [|exact VC]. cbn [andthen] in *.
    destruct (Z_le_gt_dec e0 b); [replace (Z.to_nat (e0 - b)) with O in * by lia; exact VC|].
    rewrite (corner_loop_ren nc); auto; lia.
  Qed.

  Theorem valid_ren : conn_is_valid d c' = Some true.
  Proof.
    pose proof V as V0. unfold conn_is_valid in V0 |- *.
    rewrite (r_ne _ _ _ _ R), (r_nc _ _ _ _ R), (r_eoff _ _ _ _ R), (r_coff _ _ _ _ R), (r_nv _ _ _ _ R), (r_vertices _ _ _ _ R), (r_null _ _ _ _ R),
      (r_attr _ _ _ _ R), (r_tta _ _ _ _ R), (r_nt _ _ _ _ R), (r_ete _ _ _ _ R), (r_ctc _ _ _ _ R).
    apply with_true in V0 as (ne & NE & V0). apply with_true. exists ne. split; [auto|].
    apply with_true in V0 as (nc & NC & V0). apply with_true. exists nc. split; [auto|].
    apply andthen_true in V0 as (A1 & V0). apply andthen_true. split; [auto|].
    apply andthen_true in V0 as (A2 & V0). apply andthen_true. split; [auto|].
    apply andthen_true in V0 as (A3 & V0). apply andthen_true.
    assert (DD : d = D2 \/ d = D3) by (clear; destruct d; auto).
    split.
    { destruct DD as [DD|DD]; [rewrite DD; reflexivity|]. replace (is3 d) with true in * by (rewrite DD; reflexivity).
      destruct (Z_le_gt_dec (c_ne c) 0) as [Z0|P0]; [rewrite (r_ett0 _ _ _ _ R Z0); auto|].
      apply each_true. intros j Hj. rewrite each_true in A3. specialize (A3 j Hj).
      destruct (valid_pair_inv _ _ _ _ _ A3) as (t1 & x & E1 & E2 & R1 & R2).
      unfold valid_pair. rewrite (r_ett _ _ _ _ R DD ltac:(lia) ne NE j ltac:(lia)), E1, E2. cbn [option_map with_].
      rewrite (proj2 (range_true _ _ _) (proj2 (rng t1) R1)), (proj2 (range_true _ _ _) R2). reflexivity. }
    apply andthen_true in V0 as (A4 & V0). apply andthen_true. split.
    { destruct (Z_le_gt_dec (c_nc c) 0) as [Z0|P0]; [rewrite (r_ctt0 _ _ _ _ R Z0); auto|].
      apply each_true. intros j Hj. rewrite each_true in A4. specialize (A4 j Hj).
      destruct (valid_pair_inv _ _ _ _ _ A4) as (t1 & x & E1 & E2 & R1 & R2).
      unfold valid_pair. rewrite (r_ctt _ _ _ _ R ltac:(lia) nc NC j ltac:(lia)), E1, E2. cbn [option_map with_].
      rewrite (proj2 (range_true _ _ _) (proj2 (rng t1) R1)), (proj2 (range_true _ _ _) R2). reflexivity. }
    apply andthen_true in V0 as (A5 & V0). apply andthen_true. split.
    { destruct (0 <? c_nv c); [|reflexivity]. apply each_true. intros j Hj.
      assert (Cp : 0 < children d) by (clear; destruct d; cbn; lia).
      assert (Hj' : 0 <= j / children d < c_nt c) by (split; [apply Z.div_pos; lia|apply Z.div_lt_upper_bound; [auto|lia]]).
      pose proof (Z.mod_pos_bound j _ Cp) as MB. destruct (onto _ Hj') as (t & ET).
      assert (Ht : 0 <= t < c_nt c) by (apply rng; rewrite ET; auto).
      assert (EJ : j = children d * sg t + j mod children d) by (rewrite ET; apply Z.div_mod; lia).
      rewrite EJ. rewrite (r_ttv _ _ _ _ R t _ Ht MB). rewrite each_true in A5. apply (A5 (children d * t + j mod children d)).
      assert (children d * t + j mod children d < children d * c_nt c) by nia. lia. }
    apply andthen_true in V0 as (A6 & V0). apply andthen_true. split; [auto|].
    apply each_true. intros s Hs. rewrite each_true in V0. assert (Hs' : 0 <= s < c_nt c) by lia. destruct (onto s Hs') as (t & ET).
    assert (Ht : 0 <= t < c_nt c) by (apply rng; rewrite ET; auto). rewrite <- ET. specialize (V0 t ltac:(lia)).
    destruct (valid_tree_inv _ _ _ _ _ V0) as (T1 & T2 & T3 & T4 & T5).
    unfold valid_tree. rewrite (r_ne _ _ _ _ R), (r_nc _ _ _ _ R), (r_eoff _ _ _ _ R), (r_coff _ _ _ _ R).
    unfold valid_tree in V0. apply andthen_true in V0 as (_ & V0). apply andthen_true in V0 as (W1 & V0). apply andthen_true in V0 as (W2 & _).
    apply andthen_true. split; [apply each_true; intros f Hf; apply face_ren; [auto|]; clear - Hf; destruct d; cbn in *; lia|].
    apply andthen_true. split.
    { destruct DD as [DD|DD]; [rewrite DD; reflexivity|]. replace (is3 d) with true in * by (rewrite DD; reflexivity).
      apply andthen_true in W1 as (W1 & _). apply andthen_true. split; [auto|]. destruct (0 <? c_ne c) eqn:P0; [|reflexivity].
      apply each_true. intros e He. apply edge_ren; auto; try lia. apply T3; [auto|lia|lia]. }
    apply andthen_true. split; [auto|]. destruct (0 <? c_nc c) eqn:P0; [|reflexivity].
    apply each_true. intros k Hk. assert (Hk' : 0 <= k < children d) by (clear - Hk; destruct d; cbn in *; lia). apply corner_ren; auto; try lia. apply T5; [lia|auto].
  Qed.
End Renumber.
