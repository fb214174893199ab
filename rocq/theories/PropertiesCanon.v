(** * Property theorems C66, C67: neighbor transforms and canonical coordinates

    C66: the transforms that p4est_connectivity_get_neighbor_transforms lists.
    C67: p4est_connectivity_coordinates_canonicalize. *)

From Coq Require Import ZArith List Bool Lia ZifyBool.
From Verif Require Import Quad Spec Morton CompareLemmas Neighbor PropertiesNeighbor Transform PropertiesTransform Partition Conn ConnLemmas ConnBounds PropertiesConn
  Canon CanonLemmas CanonRun CanonConn CanonEdge.
Import ListNotations.
Open Scope Z_scope.

(** ** C66 *)

(** For any interface (face, edge, corner, or the tree itself) of any tree of an accepted
    connectivity, every transform that is listed is for an interface that contains the one asked
    for; it maps the points of this interface to points of the interface of the neighbor that it
    names, and the reverse transform is its inverse, from both sides; the same holds for every
    point whose image is representable; and no point of the inside of the tree goes to a point of the
    neighbor tree. *)
Theorem C66_neighbor_transforms : forall d c t ty k, conn_is_valid d c = Some true -> 0 <= c_ne c -> 0 <= c_nc c ->
  0 <= t < c_nt c -> 0 <= k < n_index d ty ->
  exists l, neighbor_transforms d c t ty k = Some l /\ forall nt, In nt l ->
    0 <= n_tree nt < c_nt c /\ 0 <= n_self nt < n_index d (n_type nt) /\ 0 <= n_neigh nt < n_index d (n_type nt) /\
    (forall p, on d ty k p -> on d (n_type nt) (n_self nt) p) /\
    (forall p, on d (n_type nt) (n_self nt) p ->
       on d (n_type nt) (n_neigh nt) (nt_forward d nt p) /\ nt_reverse d nt (nt_forward d nt p) = p) /\
    (forall p, on d (n_type nt) (n_neigh nt) p ->
       on d (n_type nt) (n_self nt) (nt_reverse d nt p) /\ nt_forward d nt (nt_reverse d nt p) = p) /\
    (forall p, int32s d p -> fits d nt p -> nt_reverse d nt (nt_forward d nt p) = p) /\
    (forall p, int32s d p -> fits_back d nt p -> nt_forward d nt (nt_reverse d nt p) = p) /\
    (forall p, lies d CSelf 0 p -> fits d nt p /\ (n_type nt <> CSelf -> ~ closed d (nt_forward d nt p))).
Proof.
  intros d c t ty k V PE PC Ht Hk. destruct (nts_parts d c V PE PC t ty k Ht Hk) as (l & E & _). exists l. split; [auto|]. intros nt I.
  destruct (nts_good d c V PE PC t ty k l nt Ht Hk E I) as ((OK & R1 & R2 & R3) & PT).
  split; [auto|]. split; [auto|]. split; [auto|]. split; [auto|]. split; [|split; [|split; [|split]]].
  - intros p O. destruct (forward_on d nt p OK O) as (F & O'). split; [auto|]. apply roundtrip; auto.
    apply closed_int32. eapply on_closed. eauto.
  - intros p O. destruct (reverse_on d nt p OK O) as (F & O'). split; [auto|]. apply roundtrip_back; auto.
    apply closed_int32. eapply on_closed. eauto.
  - intros p. apply roundtrip. auto.
  - intros p. apply roundtrip_back. auto.
  - intros p L. split; [apply inner_fits; auto|]. intros N. apply forward_outside; auto.
Qed.
Print Assumptions C66_neighbor_transforms.

(** What is listed, and that the transforms agree with those of p4est_find_face_transform,
    p8est_find_edge_transform and p4est_find_corner_transform. *)
Theorem C66_listed : forall d c t ty k l, conn_is_valid d c = Some true -> 0 <= c_ne c -> 0 <= c_nc c ->
  0 <= t < c_nt c -> 0 <= k < n_index d ty -> neighbor_transforms d c t ty k = Some l ->
  (forall nt, In nt l -> n_type nt = CSelf ->
     n_tree nt = t /\ forall p, int32s d p -> nt_forward d nt p = p) /\
  (forall nt, In nt l -> n_type nt = CFace -> exists ft, In (n_self nt) (touched_faces d ty k) /\
     find_face_transform d c t (n_self nt) = Some (Some (n_tree nt, ft)) /\
     (exists o, zget (c_ttf c) (faces d * t + n_self nt) = Some (n_neigh nt + faces d * o)) /\
     forall p, nt_forward d nt p = coordinates_transform_face d p ft) /\
  (forall nt, In nt l -> n_type nt = CEdge -> exists ets fl, d = D3 /\ In (n_self nt) (touched_edges ty k) /\
     find_edge_transform c t (n_self nt) = Some ets /\ In (n_tree nt, n_neigh nt, fl) ets /\
     forall p, on d CEdge (n_self nt) p -> nt_forward d nt p = coordinates_transform_edge p (n_self nt) (n_neigh nt) fl) /\
  (forall nt, In nt l -> n_type nt = CCorner -> exists cts, ty = CCorner /\ n_self nt = k /\
     find_corner_transform d c t k = Some cts /\ In (n_tree nt, n_neigh nt) cts /\
     forall p, on d CCorner k p -> nt_forward d nt p = coordinates_transform_corner d (n_neigh nt)) /\
  (exists nt, In nt l /\ n_type nt = CSelf) /\
  (forall f t' ft, In f (touched_faces d ty k) -> find_face_transform d c t f = Some (Some (t', ft)) ->
     exists nt, In nt l /\ n_type nt = CFace /\ n_tree nt = t' /\ n_self nt = f) /\
  (forall e ets t' e' fl, d = D3 -> In e (touched_edges ty k) -> find_edge_transform c t e = Some ets -> In (t', e', fl) ets ->
     exists nt, In nt l /\ n_type nt = CEdge /\ n_tree nt = t' /\ n_self nt = e /\ n_neigh nt = e' /\
       forall p, on d CEdge e p -> nt_forward d nt p = coordinates_transform_edge p e e' fl) /\
  (forall cts t' k', ty = CCorner -> find_corner_transform d c t k = Some cts -> In (t', k') cts ->
     exists nt, In nt l /\ n_type nt = CCorner /\ n_tree nt = t' /\ n_neigh nt = k').
Proof.
  intros d c t ty k l V PE PC Ht Hk E. destruct (nts_parts d c V PE PC t ty k Ht Hk) as (l' & E' & P). rewrite E in E'. injection E' as <-.
  assert (C4 : forall nt, In nt l -> nt = self_nt t \/
    (n_type nt = CFace /\ exists f nf o, In f (touched_faces d ty k) /\ 0 <= f < faces d /\ 0 <= nf < faces d /\ 0 <= o < half d /\
       find_face_transform d c t f = Some (Some (n_tree nt, expand_face_transform d f nf o)) /\
       zget (c_ttf c) (faces d * t + f) = Some (nf + faces d * o) /\ nt = with_maps CFace (n_tree nt) f nf (face_nt d (expand_face_transform d f nf o))) \/
    (n_type nt = CEdge /\ exists e ne fl ets, d = D3 /\ In e (touched_edges ty k) /\ 0 <= e < 12 /\ 0 <= ne < 12 /\ 0 <= fl < 2 /\
       find_edge_transform c t e = Some ets /\ In (n_tree nt, ne, fl) ets /\ nt = with_maps CEdge (n_tree nt) e ne (edge_nt e ne fl)) \/
    (n_type nt = CCorner /\ exists nk cts, ty = CCorner /\ 0 <= nk < children d /\ find_corner_transform d c t k = Some cts /\ In (n_tree nt, nk) cts /\
       nt = with_maps CCorner (n_tree nt) k nk (corner_nt d k nk))).
  { intros nt I. apply P in I. destruct I as [->|[(f & lf & If & Ef & I)|[(D & e & le & Ie & Ee & I)|(-> & lc & Ec & I)]]]; [auto| | |].
    - right. left. destruct (touched_face d ty k f Hk If) as (Hf & _).
      destruct (face_nts_info d c V t f Ht Hf) as (l0 & E0 & _ & _ & A). rewrite Ef in E0. injection E0 as <-.
      apply A in I. destruct I as (nf & o & R1 & R2 & N & T1 & T2 & EQ). split; [rewrite EQ; reflexivity|].
      exists f, nf, o. repeat (split; [auto; fail|]). split; [|auto].
      destruct (face_info d c V t f Ht Hf) as [(F1 & F2 & _)|(nt' & nf' & o' & F1 & F2 & _ & B1 & B2 & _ & M & Q & _ & F3 & _)].
      + rewrite T1 in F1. rewrite T2 in F2. injection F1 as F1. injection F2 as F2. exfalso. apply N. split; [auto|].
        assert (o = 0) by (clear - F2 R1 R2 Hf; destruct d; cbn [faces half] in *; lia). subst o. lia.
      + rewrite T1 in F1. rewrite T2 in F2. injection F1 as F1. injection F2 as F2. rewrite F3, F1.
        assert (nf = nf' /\ o = o') as (-> & ->) by (clear - F2 R1 R2 B1 B2; destruct d; cbn [faces half] in *; lia). reflexivity.
    - right. right. left. destruct (touched_edge d ty k e D Hk Ie) as (He & _).
      destruct (edge_nts_info d c V PE t e D Ht He) as (l0 & E0 & G & _ & A). rewrite Ee in E0. injection E0 as <-.
      pose proof I as I0. apply A in I. destruct I as (ets & ne & fl & F & I & EQ). split; [rewrite EQ; reflexivity|].
      destruct (edge_info d c V PE t e D Ht He) as (ets' & F' & R). rewrite F in F'. injection F' as <-. destruct (R _ _ _ I) as (_ & R1 & R2).
      exists e, ne, fl, ets. repeat (split; [auto; fail|]). auto.
    - right. right. right. destruct (corner_nts_info d c V PE PC t k Ht Hk) as (l0 & E0 & G & _ & A). rewrite Ec in E0. injection E0 as <-.
      apply A in I. destruct I as (cts & nk & F & I & EQ). split; [rewrite EQ; reflexivity|].
      destruct (corner_info d c V PE PC t k Ht Hk) as (cts' & F' & R). rewrite F in F'. injection F' as <-. destruct (R _ _ I) as (_ & R1).
      exists nk, cts. repeat (split; [auto; fail|]). auto. }
  split; [|split; [|split; [|split; [|split; [|split; [|split]]]]]].
  - intros nt I T. destruct (C4 nt I) as [->|[(T' & _)|[(T' & _)|(T' & _)]]]; try congruence. split; [reflexivity|].
    intros p B. apply (vget_ext d); [apply forward_flat|apply B|]. intros i Hi. rewrite forward_get by auto.
    assert (X : exact (self_nt t) p i = vget p i).
    { unfold exact. assert (A : i = 0 \/ i = 1 \/ i = 2) by (clear - Hi; destruct d; cbn in Hi; lia).
      cbn [n_perm n_sign n_oself n_oneigh self_nt]. destruct A as [->|[->| ->]]; cbn [vget Z.eqb Pos.eqb]; lia. }
    rewrite X. apply i32_id. apply B. auto.
  - intros nt I T. destruct (C4 nt I) as [->|[(T' & f & nf & o & If & Hf & R1 & R2 & F1 & F2 & EQ)|[(T' & _)|(T' & _)]]]; try (cbn in T; congruence).
    exists (expand_face_transform d f nf o). rewrite EQ. cbn [n_self n_tree n_neigh with_maps]. split; [auto|]. split; [auto|]. split; [eauto|].
    intros p. apply face_agree; auto.
  - intros nt I T. destruct (C4 nt I) as [->|[(T' & _)|[(T' & e & ne & fl & ets & D & Ie & He & R1 & R2 & F & I' & EQ)|(T' & _)]]]; try (cbn in T; congruence).
    exists ets, fl. rewrite EQ. cbn [n_self n_tree n_neigh with_maps]. repeat (split; [auto; fail|]). rewrite D. intros p O. apply edge_agree; auto.
  - intros nt I T. destruct (C4 nt I) as [->|[(T' & _)|[(T' & _)|(T' & nk & cts & -> & R1 & F & I' & EQ)]]]; try (cbn in T; congruence).
    exists cts. rewrite EQ. cbn [n_self n_tree n_neigh with_maps]. repeat (split; [auto; fail|]). intros p O. apply corner_agree; auto.
  - exists (self_nt t). split; [apply P; auto|reflexivity].
  - intros f t' ft If F. destruct (touched_face d ty k f Hk If) as (Hf & _).
    destruct (face_nts_info d c V t f Ht Hf) as (lf & Ef & _ & _ & A).
    destruct (face_info d c V t f Ht Hf) as [(_ & _ & F3)|(nt' & nf & o & F1 & F2 & _ & B1 & B2 & N & _ & _ & _ & F3 & _)]; rewrite F3 in F; [discriminate|].
    injection F as <- <-. exists (with_maps CFace nt' f nf (face_nt d (expand_face_transform d f nf o))). split; [|auto].
    apply P. right. left. exists f, lf. split; [auto|]. split; [auto|]. apply A. exists nf, o. cbn [n_tree with_maps]. auto 8.
  - intros e ets t' e' fl D Ie F I. destruct (touched_edge d ty k e D Hk Ie) as (He & _).
    destruct (edge_nts_info d c V PE t e D Ht He) as (le & Ee & _ & _ & A).
    exists (with_maps CEdge t' e e' (edge_nt e e' fl)). split.
    + apply P. right. right. left. split; [auto|]. exists e, le. split; [auto|]. split; [auto|]. apply A. exists ets, e', fl. cbn [n_tree with_maps]. auto.
    + repeat (split; [reflexivity|]). intros p O. destruct (edge_info d c V PE t e D Ht He) as (ets' & F' & R). rewrite F in F'. injection F' as <-.
      destruct (R _ _ _ I) as (_ & R1 & R2). rewrite D in *. apply edge_agree; auto.
  - intros cts t' k' -> F I. destruct (corner_nts_info d c V PE PC t k Ht Hk) as (lc & Ec & _ & _ & A).
    exists (with_maps CCorner t' k k' (corner_nt d k k')). split; [|auto].
    apply P. right. right. right. split; [auto|]. exists lc. split; [auto|]. apply A. exists cts, k'. cbn [n_tree with_maps]. auto.
Qed.
Print Assumptions C66_listed.

(** the transform back: the face of the neighbor lists the first tree, with the inverse map *)
Definition chk_back (d : dim) (f nf o : Z) : bool :=
  let a := with_maps CFace 0 f nf (face_nt d (expand_face_transform d f nf o)) in
  let b := with_maps CFace 0 nf f (face_nt d (expand_face_transform d nf f o)) in
  forallb (fun i => let j := vget (n_perm a) i in
    (vget (n_perm b) j =? i) && (vget (n_sign b) j =? vget (n_sign a) i) && (vget (n_oself b) i =? vget (n_oneigh a) i) && (vget (n_oneigh b) j =? vget (n_oself a) j)) (axes d).
Lemma chk_back_all d f nf o : 0 <= f < faces d -> 0 <= nf < faces d -> 0 <= o < half d -> chk_back d f nf o = true.
Proof.
  intros Hf Hn Ho.
  assert (A : zall (faces d) (fun f => zall (faces d) (fun nf => zall (half d) (chk_back d f nf))) = true) by (destruct d; vm_compute; reflexivity).
  pose proof (zall_spec _ _ f A Hf) as A1. cbv beta in A1.
  pose proof (zall_spec _ _ nf A1 Hn) as A2. cbv beta in A2.
  exact (zall_spec _ _ o A2 Ho).
Qed.
Lemma back_reverse d f nf o t t' p : 0 <= f < faces d -> 0 <= nf < faces d -> 0 <= o < half d ->
  nt_forward d (with_maps CFace t' nf f (face_nt d (expand_face_transform d nf f o))) p =
  nt_reverse d (with_maps CFace t f nf (face_nt d (expand_face_transform d f nf o))) p.
Proof.
  intros Hf Hn Ho. pose proof (face_nt_ok d f nf o t Hf Hn Ho) as OK.
  apply (vget_ext d); [apply forward_flat|apply reverse_flat; auto|]. intros j Hj. rewrite forward_get by auto.
  destruct (perm_inv _ _ OK j Hj) as (i & Hi & Ej). pose proof (reverse_get d _ p i OK Hi) as R. cbv zeta in R. rewrite Ej in R. rewrite R. f_equal.
  pose proof (chk_back_all d f nf o Hf Hn Ho) as C. unfold chk_back in C. cbv zeta in C. rewrite forallb_forall in C. specialize (C i (proj2 (axes_in d i) Hi)).
  unfold exact. cbn [n_perm n_sign n_oself n_oneigh with_maps] in *. rewrite Ej in C. rewrite !andb_true_iff in C. destruct C as (((C1 & C2) & C3) & C4).
  assert (E1 : vget (fst (fst (fst (face_nt d (expand_face_transform d nf f o))))) j = i) by lia. rewrite E1.
  assert (E2 : vget (snd (fst (fst (face_nt d (expand_face_transform d nf f o))))) j = vget (snd (fst (fst (face_nt d (expand_face_transform d f nf o))))) i) by lia. rewrite E2.
  assert (E3 : vget (snd (fst (face_nt d (expand_face_transform d nf f o)))) i = vget (snd (face_nt d (expand_face_transform d f nf o))) i) by lia. rewrite E3.
  assert (E4 : vget (snd (face_nt d (expand_face_transform d nf f o))) j = vget (snd (fst (face_nt d (expand_face_transform d f nf o)))) j) by lia. rewrite E4. reflexivity.
Qed.
Theorem C66_faces_symmetric : forall d c t f l nt, conn_is_valid d c = Some true -> 0 <= c_ne c -> 0 <= c_nc c ->
  0 <= t < c_nt c -> 0 <= f < faces d -> neighbor_transforms d c t CFace f = Some l -> In nt l -> n_type nt = CFace ->
  exists l' nt', neighbor_transforms d c (n_tree nt) CFace (n_neigh nt) = Some l' /\ In nt' l' /\ n_type nt' = CFace /\
    n_tree nt' = t /\ n_self nt' = n_neigh nt /\ n_neigh nt' = f /\
    forall p, nt_forward d nt' p = nt_reverse d nt p /\ nt_reverse d nt' p = nt_forward d nt p.
Proof.
  intros d c t f l nt V PE PC Ht Hf E I T.
  destruct (nts_parts d c V PE PC t CFace f Ht Hf) as (l0 & E0 & P). rewrite E in E0. injection E0 as <-. apply P in I.
  destruct I as [->|[(f' & lf & If & Ef & I)|[(D & e & le & Ie & Ee & I)|(X & _)]]]; [discriminate T| |destruct Ie|discriminate X].
  cbn in If. destruct If as [->|[]]. destruct (face_nts_info d c V t f' Ht Hf) as (lf' & Ef' & _ & _ & A). rewrite Ef in Ef'. injection Ef' as <-.
  apply A in I. destruct I as (nf & o & R1 & R2 & N & T1 & T2 & EQ).
  destruct (face_info d c V t f' Ht Hf) as [(F1 & F2 & _)|(nt' & nf' & o' & F1 & F2 & Rn & B1 & B2 & N' & M & Q & _ & F3 & G1 & G2 & G3)].
  { rewrite T1 in F1. rewrite T2 in F2. injection F1 as F1. injection F2 as F2. exfalso. apply N. split; [auto|].
    assert (o = 0) by (clear - F2 R1 R2 Hf; destruct d; cbn [faces half] in *; lia). subst o. lia. }
  rewrite T1 in F1. rewrite T2 in F2. injection F1 as F1. injection F2 as F2.
  assert (nf = nf' /\ o = o') as (-> & ->) by (clear - F2 R1 R2 B1 B2; destruct d; cbn [faces half] in *; lia).
  rewrite EQ. cbn [n_tree n_neigh with_maps]. rewrite F1. rewrite F1 in EQ.
  destruct (nts_parts d c V PE PC nt' CFace nf' Rn B1) as (l' & E' & P').
  destruct (face_nts_info d c V nt' nf' Rn B1) as (lf' & Ef' & _ & _ & A').
  exists l', (with_maps CFace t nf' f' (face_nt d (expand_face_transform d nf' f' o'))). split; [auto|]. split.
  { apply P'. right. left. exists nf', lf'. split; [left; auto|]. split; [auto|]. apply A'. exists f', o'. cbn [n_tree with_maps].
    split; [auto|]. split; [auto|]. split; [intros (-> & ->); apply N'; auto|]. auto. }
  repeat (split; [reflexivity|]). intros p. split; [apply back_reverse; auto|].
  symmetry. apply back_reverse; auto.
Qed.
Print Assumptions C66_faces_symmetric.

Definition img (d : dim) (p : vec) (nt : ntrans) : Z * vec := (n_tree nt, nt_forward d nt p).
Example C66_example : exists l, neighbor_transforms D2 twisted 0 CCorner 0 = Some l /\
  map n_type l = [CSelf; CFace; CFace; CCorner; CCorner; CCorner; CCorner; CCorner] /\
  firstn 5 (map (img D2 (0, 0, 0)) l) =
    [(0, (0, 0, 0)); (1, (2 ^ 30, 2 ^ 30, 0)); (1, (0, 2 ^ 30, 0)); (0, (2 ^ 30, 0, 0)); (0, (0, 2 ^ 30, 0))] /\
  firstn 3 (map (img D2 (1, 2, 0)) l) = [(0, (1, 2, 0)); (1, (2 ^ 30 + 1, 2 ^ 30 - 2, 0)); (1, (1, 2 ^ 30 + 2, 0))] /\
  map (fun nt => nt_reverse D2 nt (nt_forward D2 nt (1, 2, 0))) l = repeat (1, 2, 0) 8.
Proof. eexists. split; [vm_compute; reflexivity|]. repeat split; vm_compute; reflexivity. Qed.

(** The image of a point of the closed tree need not be representable: for two trees glued at
    their high sides, the low side of one goes to 2 * P4EST_ROOT_LEN = 2^31 in the coordinates of
    the other.  That is an overflow of a signed integer (p4est_qcoord_t is int32_t), here shown by
    the wrapped result. *)
Definition high_high : conn :=
  mkconn 0 2 0 0 None None 0 None [0; 1; 0; 0; 1; 0; 1; 1] [0; 1; 2; 3; 0; 1; 2; 3] [] [] [] [] [] [0] [] [].
Theorem C66_overflow_refuted : exists c t k l nt p, conn_is_valid D2 c = Some true /\ 0 <= t < c_nt c /\ 0 <= k < n_index D2 CFace /\
  neighbor_transforms D2 c t CFace k = Some l /\ In nt l /\ closed D2 p /\ ~ fits D2 nt p /\
  nt_forward D2 nt p = (- 2 ^ 31, 2 ^ 29, 0).
Proof.
  exists high_high, 0, 1.
  destruct (neighbor_transforms D2 high_high 0 CFace 1) as [l|] eqn:E; [|vm_compute in E; discriminate].
  exists l, (with_maps CFace 1 1 1 (face_nt D2 (expand_face_transform D2 1 1 0))), (0, 2 ^ 29, 0).
  split; [vm_compute; reflexivity|]. split; [vm_compute; split; congruence|]. split; [vm_compute; split; congruence|]. split; [auto|].
  split; [vm_compute in E; injection E as <-; right; left; reflexivity|].
  split; [split; [intros _; reflexivity|]; intros i Hi; cbn in Hi; assert (A : i = 0 \/ i = 1) by lia; destruct A as [-> | ->]; vm_compute; split; congruence|].
  split; [|vm_compute; reflexivity]. intros F. specialize (F 0 ltac:(cbn; lia)). vm_compute in F. destruct F as (_ & F). discriminate.
Qed.
Print Assumptions C66_overflow_refuted.

(** ** C67 *)

(** The result of p4est_connectivity_coordinates_canonicalize is one of the images of the point
    under the neighbor transforms of the interface it lies on (the point itself is one of these),
    and of all of them it has the lowest tree, and the lowest position on the space filling curve among those in this
    tree.  Every point of a closed tree lies on some interface, so the function is defined for all
    of them. *)
Theorem C67_minimum : forall d c t p, conn_is_valid d c = Some true -> 0 <= c_ne c -> 0 <= c_nc c ->
  0 <= t < c_nt c -> closed d p ->
  exists r, canonicalize d c t p = Some r /\
    (exists ty k, 0 <= k < n_index d ty /\ lies d ty k p) /\
    forall ty k l, 0 <= k < n_index d ty -> lies d ty k p -> neighbor_transforms d c t ty k = Some l ->
    In r (map (img d p) l) /\ In (t, p) (map (img d p) l) /\ forall x, In x (map (img d p) l) -> point_le d r x /\ closed d (snd x).
Proof.
  intros d c t p V PE PC Ht C.
  assert (IM : forall ty k l, 0 <= k < n_index d ty -> lies d ty k p -> neighbor_transforms d c t ty k = Some l ->
    exists r, canonicalize d c t p = Some r /\ In r (map (img d p) l) /\ In (t, p) (map (img d p) l) /\ forall x, In x (map (img d p) l) -> point_le d r x /\ closed d (snd x)).
  { intros ty k l Hk L E. destruct (canonicalize_images d c V PE PC t ty k p l Ht Hk L E) as (imgs & EC & S1).
    assert (CL : forall x, In x ((t, p) :: imgs) -> closed d (snd x)).
    { intros x I. apply S1 in I. destruct I as (nt & I & ->). destruct (nts_good d c V PE PC t ty k l nt Ht Hk E I) as ((OK & _) & PT).
      cbn [snd]. eapply on_closed. apply forward_on; [exact OK|]. apply PT. apply lies_on. auto. }
    assert (MI : forall x, In x (map (img d p) l) <-> In x ((t, p) :: imgs)).
    { intros x. rewrite S1, in_map_iff. unfold img. split; intros (nt & A & B); exists nt; auto. }
    destruct (lower_fold d imgs (t, p) (CL _ (or_introl eq_refl)) (fun x I => CL x (or_intror I))) as (M1 & M2). cbv zeta in M1, M2.
    exists (fold_left (lower d) imgs (t, p)). split; [auto|]. split; [apply MI; auto|]. split; [apply MI; left; auto|].
    intros x I. apply MI in I. auto. }
  destruct (lies_exists d p C) as (ty & k & Hk & L). destruct (nts_parts d c V PE PC t ty k Ht Hk) as (l & E & _).
  destruct (IM ty k l Hk L E) as (r & ER & _). exists r. split; [auto|]. split; [eauto|].
  intros ty' k' l' Hk' L' E'. destruct (IM ty' k' l' Hk' L' E') as (r' & ER' & X). rewrite ER in ER'. injection ER' as <-. auto.
Qed.
Print Assumptions C67_minimum.

(** Two points with the same set of images have the same canonical coordinates. *)
Theorem C67_same_images : forall d c t p ty k l t' p' ty' k' l', conn_is_valid d c = Some true -> 0 <= c_ne c -> 0 <= c_nc c ->
  0 <= t < c_nt c -> 0 <= t' < c_nt c -> 0 <= k < n_index d ty -> 0 <= k' < n_index d ty' -> lies d ty k p -> lies d ty' k' p' ->
  neighbor_transforms d c t ty k = Some l -> neighbor_transforms d c t' ty' k' = Some l' ->
  (forall x, In x (map (img d p) l) <-> In x (map (img d p') l')) ->
  canonicalize d c t p = canonicalize d c t' p'.
Proof.
  intros d c t p ty k l t' p' ty' k' l' V PE PC Ht Ht' Hk Hk' L L' E E' S1.
  destruct (C67_minimum d c t p V PE PC Ht (on_closed _ _ _ _ (lies_on _ _ _ _ L))) as (r & Er & _ & M).
  destruct (C67_minimum d c t' p' V PE PC Ht' (on_closed _ _ _ _ (lies_on _ _ _ _ L'))) as (r' & Er' & _ & M').
  destruct (M ty k l Hk L E) as (A1 & _ & A2). destruct (M' ty' k' l' Hk' L' E') as (B1 & _ & B2).
  rewrite Er, Er'. f_equal. apply (point_le_antisym d).
  - apply A2. auto.
  - apply A2. apply S1. auto.
  - apply A2. apply S1. auto.
  - apply B2. apply S1. auto.
Qed.
Print Assumptions C67_same_images.

(** A point inside of a face has the same canonical coordinates as seen from both trees, for every
    accepted connectivity; and they are canonical themselves. *)
Theorem C67_face_canonical : forall d c t f p t' ft, conn_is_valid d c = Some true -> 0 <= c_ne c -> 0 <= c_nc c ->
  0 <= t < c_nt c -> 0 <= f < faces d -> lies d CFace f p -> find_face_transform d c t f = Some (Some (t', ft)) ->
  canonicalize d c t p = canonicalize d c t' (coordinates_transform_face d p ft) /\
  exists r, canonicalize d c t p = Some r /\ canonicalize d c (fst r) (snd r) = Some r.
Proof.
  intros d c t f p t' ft V PE PC Ht Hf L F.
  destruct (nts_parts d c V PE PC t CFace f Ht Hf) as (l & E & P).
  destruct (C66_listed d c t CFace f l V PE PC Ht Hf E) as (LS & LF & LE & LC & _ & XF & _).
  destruct (XF f t' ft (or_introl eq_refl) F) as (nt & I & T & T1 & T2).
  destruct (LF nt I T) as (ft' & _ & F' & _ & AG). rewrite T1, T2, F in F'. injection F' as <-.
  destruct (nts_good d c V PE PC t CFace f l nt Ht Hf E I) as ((OK & R1 & R2 & R3) & PT).
  destruct (C66_faces_symmetric d c t f l nt V PE PC Ht Hf E I T) as (l' & nt' & E' & I' & T' & S1 & S2 & S3 & BK).
  pose proof R3 as R3'. rewrite T in R3'. cbn [n_index] in R3'.
  assert (L' : lies d CFace (n_neigh nt) (nt_forward d nt p)) by (rewrite <- T; apply forward_lies; [auto|]; rewrite T, T2; auto).
  assert (RT : nt_reverse d nt (nt_forward d nt p) = p).
  { destruct (forward_on d nt p OK) as (FI & _); [rewrite T, T2; apply lies_on; auto|]. apply roundtrip; auto.
    apply closed_int32. eapply on_closed. apply lies_on. eauto. }
  assert (ONE : forall t f p l nt x, 0 <= t < c_nt c -> 0 <= f < faces d -> lies d CFace f p -> neighbor_transforms d c t CFace f = Some l ->
    In nt l -> n_type nt = CFace -> In x (map (img d p) l) <-> x = (t, p) \/ x = img d p nt).
  { clear - V PE PC. intros t f p l nt x Ht Hf L E I T.
    destruct (C66_listed d c t CFace f l V PE PC Ht Hf E) as (LS & LF & LE & LC & (s & Is & Ts) & _).
    assert (I32 : int32s d p) by (apply closed_int32; eapply on_closed; apply lies_on; eauto).
    destruct (LS s Is Ts) as (S1 & S2). rewrite in_map_iff. split.
    - intros (m & <- & Im). destruct (n_type m) eqn:TM.
      + left. destruct (LS m Im TM) as (M1 & M2). unfold img. rewrite M1, M2 by auto. reflexivity.
      + right. destruct (LF m Im TM) as (a & A1 & A2 & _ & A3). destruct (LF nt I T) as (b & B1 & B2 & _ & B3).
        cbn in A1, B1. destruct A1 as [A1|[]]. destruct B1 as [B1|[]]. rewrite <- A1 in A2. rewrite <- B1 in B2. rewrite A2 in B2. injection B2 as Q1 Q2.
        unfold img. rewrite Q1, A3, B3, Q2. reflexivity.
      + destruct (LE m Im TM) as (_ & _ & _ & [] & _).
      + destruct (LC m Im TM) as (_ & X & _). discriminate X.
    - intros [->| ->]; [exists s|exists nt; auto]. split; [|auto]. unfold img. rewrite S1, S2 by auto. reflexivity. }
  assert (EQ : canonicalize d c t p = canonicalize d c t' (coordinates_transform_face d p ft)).
  { rewrite <- AG, <- T1. apply (C67_same_images d c t p CFace f l (n_tree nt) (nt_forward d nt p) CFace (n_neigh nt) l' V PE PC Ht R1 Hf R3' L L' E E').
    intros x. rewrite (ONE t f p l nt x Ht Hf L E I T), (ONE (n_tree nt) (n_neigh nt) _ l' nt' x R1 R3' L' E' I' T').
    unfold img. rewrite S1. rewrite (proj1 (BK _)), RT. tauto. }
  split; [auto|].
  destruct (C67_minimum d c t p V PE PC Ht (on_closed _ _ _ _ (lies_on _ _ _ _ L))) as (r & Er & _ & M).
  exists r. split; [auto|]. destruct (M CFace f l Hf L E) as (Ir & _). apply (ONE t f p l nt r Ht Hf L E I T) in Ir.
  destruct Ir as [->| ->]; cbn [fst snd img]; [auto|]. rewrite T1, AG, <- EQ. auto.
Qed.
Print Assumptions C67_face_canonical.

(** *** Corners *)

Definition cpoint := coordinates_transform_corner.
Definition vsame (a b : vec) : bool := veqb a b.
Lemma vsame_eq a b : vsame a b = true -> a = b.
Proof. unfold vsame, veqb. destruct a as [[x y] z], b as [[x' y'] z']. cbn. intros H. f_equal; [f_equal|]; lia. Qed.
Lemma corner_face_point d k i nf o : 0 <= k < children d -> 0 <= i < nd d -> 0 <= nf < faces d -> 0 <= o < half d ->
  let f := corner_faces d k i in let k' := face_neighbor_corner d k f nf o in
  coordinates_transform_face d (cpoint d k) (expand_face_transform d f nf o) = cpoint d k' /\ 0 <= k' < children d.
Proof.
  intros Hk Hi Hn Ho.
  assert (A : zall (children d) (fun k => zall (nd d) (fun i => zall (faces d) (fun nf => zall (half d) (fun o =>
    let f := corner_faces d k i in let k' := face_neighbor_corner d k f nf o in
    vsame (coordinates_transform_face d (cpoint d k) (expand_face_transform d f nf o)) (cpoint d k') && (0 <=? k') && (k' <? children d))))) = true)
    by (destruct d; vm_compute; reflexivity).
  pose proof (zall_spec _ _ k A Hk) as A1. cbv beta in A1. pose proof (zall_spec _ _ i A1 Hi) as A2. cbv beta in A2.
  pose proof (zall_spec _ _ nf A2 Hn) as A3. cbv beta in A3. pose proof (zall_spec _ _ o A3 Ho) as A4. cbv beta zeta in A4 |- *.
  rewrite !andb_true_iff in A4. destruct A4 as ((A4 & A5) & A6). split; [apply vsame_eq; auto|lia].
Qed.
Lemma corner_edge_point k i ne fl : 0 <= k < 8 -> 0 <= i < 3 -> 0 <= ne < 12 -> 0 <= fl < 2 ->
  let e := corner_edges k i in let k' := edge_corners ne (Z.lxor fl (b2z (edge_corners e 1 =? k))) in
  coordinates_transform_edge (cpoint D3 k) e ne fl = cpoint D3 k' /\ 0 <= k' < 8.
Proof.
  intros Hk Hi Hn Ho.
  assert (A : zall 8 (fun k => zall 3 (fun i => zall 12 (fun ne => zall 2 (fun fl =>
    let e := corner_edges k i in let k' := edge_corners ne (Z.lxor fl (b2z (edge_corners e 1 =? k))) in
    vsame (coordinates_transform_edge (cpoint D3 k) e ne fl) (cpoint D3 k') && (0 <=? k') && (k' <? 8))))) = true)
    by (vm_compute; reflexivity).
  pose proof (zall_spec _ _ k A Hk) as A1. cbv beta in A1. pose proof (zall_spec _ _ i A1 Hi) as A2. cbv beta in A2.
  pose proof (zall_spec _ _ ne A2 Hn) as A3. cbv beta in A3. pose proof (zall_spec _ _ fl A3 Ho) as A4. cbv beta zeta in A4 |- *.
  rewrite !andb_true_iff in A4. destruct A4 as ((A4 & A5) & A6). split; [apply vsame_eq; auto|lia].
Qed.
Lemma cpoint_lies d k : 0 <= k < children d -> lies d CCorner k (cpoint d k).
Proof. intros Hk. split; [intros ->; reflexivity|]. intros i Hi. cbn [at_axis]. apply ctc_on; auto. Qed.

(** the number of a corner is the same for all tree corners that are met through a face or an
    edge: what a caller has to ensure, since p4est_connectivity_is_valid does not check it *)
Definition corner_consistent (d : dim) (c : conn) (ac : Z) : Prop :=
  forall t k t' k', 0 <= t < c_nt c -> 0 <= k < children d -> zget (c_ttc c) (children d * t + k) = Some ac ->
  across_face d c t k t' k' \/ across_edge d c t k t' k' -> zget (c_ttc c) (children d * t' + k') = Some ac.

Lemma corner_images_spec d c t k ac l : conn_is_valid d c = Some true -> 0 <= c_ne c -> 0 < c_nc c ->
  0 <= t < c_nt c -> 0 <= k < children d -> zget (c_ttc c) (children d * t + k) = Some ac -> ac <> -1 -> corner_consistent d c ac ->
  neighbor_transforms d c t CCorner k = Some l ->
  forall x, In x (map (img d (cpoint d k)) l) <->
    exists t' k', 0 <= t' < c_nt c /\ 0 <= k' < children d /\ zget (c_ttc c) (children d * t' + k') = Some ac /\ x = (t', cpoint d k').
Proof.
  intros V PE PC Ht Hk AC NA CO E. assert (PC' : 0 <= c_nc c) by lia.
  destruct (C66_listed d c t CCorner k l V PE PC' Ht Hk E) as (LS & LF & LE & LC & XS & XF & XE & XC).
  destruct (C48_corner_neighbors d c t k ac V Ht Hk PC PE AC NA) as (cts & FC & _ & C48).
  pose proof (cpoint_lies d k Hk) as L. pose proof (lies_on _ _ _ _ L) as O.
  assert (I32 : int32s d (cpoint d k)) by (apply closed_int32; eapply on_closed; eauto).
  assert (ONF : forall f, In f (touched_faces d CCorner k) <-> exists i, 0 <= i < nd d /\ f = corner_faces d k i).
  { intros f. cbn [touched_faces]. rewrite in_map_iff. split; intros (i & A & B).
    - exists i. split; [apply axes_in; auto|auto].
    - exists i. split; [auto|apply axes_in; auto]. }
  assert (ONE : forall e, In e (touched_edges CCorner k) <-> exists i, 0 <= i < 3 /\ e = corner_edges k i).
  { intros e. cbn [touched_edges]. rewrite in_map_iff. split; intros (i & A & B).
    - exists i. split; [cbn in B; lia|auto].
    - exists i. split; [auto|cbn; lia]. }
  assert (AF : forall i nf o t', 0 <= i < nd d -> 0 <= nf < faces d -> 0 <= o < half d -> ~ (t' = t /\ nf = corner_faces d k i) ->
    zget (c_ttt c) (faces d * t + corner_faces d k i) = Some t' -> zget (c_ttf c) (faces d * t + corner_faces d k i) = Some (nf + faces d * o) ->
    (nf + faces d * o) mod faces d = nf -> (nf + faces d * o) / faces d = o ->
    across_face d c t k t' (face_neighbor_corner d k (corner_faces d k i) nf o)).
  { intros i nf o t' Hi Hn Ho N T1 T2 M Q. exists i, (corner_faces d k i), (nf + faces d * o). split; [auto|]. split; [auto|]. split; [auto|]. split; [auto|].
    pose proof (corner_faces_range d k i Hk Hi) as FR.
    split; [|rewrite M, Q; auto]. intros (A & B). apply N. split; [auto|]. rewrite B, Z.mod_small in M by lia. auto. }
  intros x. rewrite in_map_iff. split.
  - intros (nt & <- & I). unfold img. destruct (n_type nt) eqn:T.
    + destruct (LS nt I T) as (-> & EQ). rewrite EQ by auto. exists t, k. auto.
    + destruct (LF nt I T) as (ft & If & F & _ & EQ). rewrite EQ. apply ONF in If. destruct If as (i & Hi & Ei). rewrite Ei in F.
      pose proof (corner_faces_range d k i Hk Hi) as FR.
      destruct (face_info d c V t _ Ht FR) as [(_ & _ & F3)|(t' & nf & o & T1 & T2 & Rn & R1 & R2 & N & M & Q & _ & F3 & _)]; rewrite F3 in F; [discriminate|].
      injection F as <- <-. destruct (corner_face_point d k i nf o Hk Hi R1 R2) as (PT & RK). cbv zeta in PT, RK.
      exists t', (face_neighbor_corner d k (corner_faces d k i) nf o). split; [auto|]. split; [auto|]. split; [|rewrite PT; auto].
      apply (CO t k t' _ Ht Hk AC). left. apply AF; auto.
    + destruct (LE nt I T) as (ets & fl & D & Ie & F & If & EQ). apply ONE in Ie. destruct Ie as (i & Hi & Ei). rewrite Ei in *.
      assert (Hk8 : 0 <= k < 8) by (rewrite D in Hk; exact Hk).
      pose proof (corner_edges_range k i Hk8 Hi) as ER.
      destruct (edge_info d c V PE t _ D Ht ER) as (ets' & F' & R). rewrite F in F'. injection F' as <-. destruct (R _ _ _ If) as (R0 & R1 & R2).
      destruct (nts_good d c V PE PC' t CCorner k l nt Ht Hk E I) as (_ & PT). specialize (PT _ O). rewrite T, Ei in PT. rewrite (EQ _ PT).
      destruct (corner_edge_point k i (n_neigh nt) fl Hk8 Hi R1 R2) as (P1 & P2). cbv zeta in P1, P2.
      assert (P1' : coordinates_transform_edge (cpoint d k) (corner_edges k i) (n_neigh nt) fl = cpoint d (edge_corners (n_neigh nt) (Z.lxor fl (b2z (edge_corners (corner_edges k i) 1 =? k))))) by (rewrite D; exact P1).
      exists (n_tree nt), (edge_corners (n_neigh nt) (Z.lxor fl (b2z (edge_corners (corner_edges k i) 1 =? k)))).
      split; [auto|]. split; [rewrite D; exact P2|]. split; [|rewrite P1'; auto].
      apply (CO t k _ _ Ht Hk AC). right. unfold find_edge_transform in F. destruct (c_ne c =? 0) eqn:N0; [injection F as <-; destruct If|].
      split; [auto|]. split; [lia|]. destruct (zget (c_tte c) (12 * t + corner_edges k i)) as [ae|] eqn:EA; [|discriminate].
      destruct (ae =? -1) eqn:N1; [injection F as <-; destruct If|].
      exists i, (corner_edges k i), ae, ets, (n_neigh nt), fl. split; [auto|]. split; [auto|]. split; [auto|]. split; [lia|]. split; [|auto].
      unfold find_edge_transform. rewrite N0, EA, N1. exact F.
    + destruct (LC nt I T) as (cts' & _ & _ & F & If & EQ). rewrite FC in F. injection F as <-. rewrite (EQ _ O). apply C48 in If.
      exists (n_tree nt), (n_neigh nt). tauto.
  - intros (t' & k' & R1 & R2 & AC' & ->).
    assert (DEC : In (t', k') cts \/ (t' = t /\ k' = k) \/ across_face d c t k t' k' \/ across_edge d c t k t' k').
    { destruct (mem_pair (t', k') cts) eqn:MP; [left; apply mem_pair_true; auto|]. right.
      assert (EE : exists dis0 dis, corner_faces_distinct d c t k = Some dis0 /\ (if is3 d then corner_edges_distinct c t k dis0 else Some dis0) = Some dis).
      { unfold find_corner_transform in FC. destruct (c_nc c =? 0) eqn:X; [lia|]. rewrite AC in FC. destruct (ac =? -1) eqn:X2; [lia|].
        destruct (zget (c_coff c) ac); [|discriminate]. destruct (zget (c_coff c) (ac + 1)); [|discriminate].
        destruct (corner_faces_distinct d c t k) as [dis0|]; [|discriminate].
        destruct (if is3 d then corner_edges_distinct c t k dis0 else Some dis0) as [dis|] eqn:Q; [eauto|discriminate]. }
      destruct EE as (dis0 & dis & ED & EE).
      destruct (mem_pair (t', k') dis) eqn:MD.
      - apply mem_pair_true in MD. apply (edges_spec d c V t k dis0 dis EE PE) in MD. rewrite (distinct_spec d c V t k dis0 Ht Hk ED t' k') in MD. tauto.
      - exfalso. assert (NI : ~ In (t', k') dis) by (intros X; apply mem_pair_true in X; congruence).
        rewrite (edges_spec d c V t k dis0 dis EE PE), (distinct_spec d c V t k dis0 Ht Hk ED t' k') in NI.
        assert (X : In (t', k') cts) by (apply C48; tauto). apply mem_pair_true in X. congruence. }
    destruct DEC as [I|[(-> & ->)|[AX|AX]]].
    + destruct (XC cts t' k' eq_refl FC I) as (nt & In_ & T & T1 & T2). destruct (LC nt In_ T) as (_ & _ & _ & _ & _ & EQ).
      exists nt. split; [|auto]. unfold img. rewrite T1, (EQ _ O), T2. reflexivity.
    + destruct XS as (nt & In_ & T). destruct (LS nt In_ T) as (T1 & EQ). exists nt. split; [|auto]. unfold img. rewrite T1, EQ by auto. reflexivity.
    + destruct AX as (i & f & code & Hi & Ef & T1 & T2 & N & ->).
      pose proof (corner_faces_range d k i Hk Hi) as FR. rewrite <- Ef in FR.
      destruct (face_info d c V t f Ht FR) as [(F1 & F2 & _)|(t1 & nf & o & F1 & F2 & Rn & B1 & B2 & N' & M & Q & _ & F3 & _)].
      { rewrite T1 in F1. rewrite T2 in F2. injection F1 as F1. injection F2 as F2. tauto. }
      rewrite T1 in F1. rewrite T2 in F2. injection F1 as F1. injection F2 as F2. rewrite F2, M, Q, <- F1 in *.
      destruct (XF f t' _ (proj2 (ONF f) (ex_intro _ i (conj Hi Ef))) F3) as (nt & In_ & T & G1 & G2).
      destruct (LF nt In_ T) as (ft' & _ & F' & _ & EQ). rewrite G1, G2, F3 in F'. injection F' as <-.
      exists nt. split; [|auto]. unfold img. rewrite G1, EQ. f_equal. rewrite Ef in *. apply (corner_face_point d k i nf o Hk Hi B1 B2).
    + destruct AX as (D & N0 & i & e & ae & ets & ne & nf & Hi & Ee & EA & NA' & F & If & ->).
      destruct (XE e ets t' ne nf D (proj2 (ONE e) (ex_intro _ i (conj Hi Ee))) F If) as (nt & In_ & T & G1 & G2 & G3 & EQ).
      assert (Hk8 : 0 <= k < 8) by (rewrite D in Hk; exact Hk).
      pose proof (corner_edges_range k i Hk8 Hi) as ER. rewrite <- Ee in ER.
      destruct (edge_info d c V PE t e D Ht ER) as (ets' & F' & R). rewrite F in F'. injection F' as <-. destruct (R _ _ _ If) as (Q0 & Q1 & Q2).
      destruct (nts_good d c V PE PC' t CCorner k l nt Ht Hk E In_) as (_ & PT). specialize (PT _ O). rewrite T, G2 in PT.
      exists nt. split; [|auto]. unfold img. rewrite G1, (EQ _ PT). f_equal. rewrite Ee. rewrite D.
      apply (corner_edge_point k i ne nf Hk8 Hi Q1 Q2).
Qed.

(** If the number of a corner is the same wherever the corner is met, all tree corners that carry
    it have the same canonical coordinates, and these are canonical themselves. *)
Theorem C67_corner_canonical : forall d c t k t' k' ac, conn_is_valid d c = Some true -> 0 <= c_ne c -> 0 < c_nc c ->
  0 <= t < c_nt c -> 0 <= k < children d -> 0 <= t' < c_nt c -> 0 <= k' < children d ->
  zget (c_ttc c) (children d * t + k) = Some ac -> zget (c_ttc c) (children d * t' + k') = Some ac -> ac <> -1 -> corner_consistent d c ac ->
  canonicalize d c t (coordinates_transform_corner d k) = canonicalize d c t' (coordinates_transform_corner d k') /\
  exists r, canonicalize d c t (coordinates_transform_corner d k) = Some r /\ canonicalize d c (fst r) (snd r) = Some r.
Proof.
  intros d c t k t' k' ac V PE PC Ht Hk Ht' Hk' A1 A2 NA CO. assert (PC' : 0 <= c_nc c) by lia.
  assert (G : forall t' k', 0 <= t' < c_nt c -> 0 <= k' < children d -> zget (c_ttc c) (children d * t' + k') = Some ac ->
    canonicalize d c t (cpoint d k) = canonicalize d c t' (cpoint d k')).
  { clear t' k' Ht' Hk' A2. intros t' k' Ht' Hk' A2.
    destruct (nts_parts d c V PE PC' t CCorner k Ht Hk) as (l & E & _). destruct (nts_parts d c V PE PC' t' CCorner k' Ht' Hk') as (l' & E' & _).
    apply (C67_same_images d c t (cpoint d k) CCorner k l t' (cpoint d k') CCorner k' l' V PE PC' Ht Ht' Hk Hk' (cpoint_lies d k Hk) (cpoint_lies d k' Hk') E E').
    intros x. rewrite (corner_images_spec d c t k ac l V PE PC Ht Hk A1 NA CO E), (corner_images_spec d c t' k' ac l' V PE PC Ht' Hk' A2 NA CO E'). reflexivity. }
  split; [apply G; auto|].
  destruct (nts_parts d c V PE PC' t CCorner k Ht Hk) as (l & E & _).
  destruct (C67_minimum d c t (cpoint d k) V PE PC' Ht (on_closed _ _ _ _ (lies_on _ _ _ _ (cpoint_lies d k Hk)))) as (r & Er & _ & M).
  exists r. split; [exact Er|]. destruct (M CCorner k l Hk (cpoint_lies d k Hk) E) as (I & _).
  apply (corner_images_spec d c t k ac l V PE PC Ht Hk A1 NA CO E) in I. destruct I as (t1 & k1 & R1 & R2 & A3 & ->). cbn [fst snd].
  rewrite <- (G t1 k1 R1 R2 A3). exact Er.
Qed.
Print Assumptions C67_corner_canonical.

(** *** Edges *)

Lemma edge_images_spec c t e f ae l p : conn_is_valid D3 c = Some true -> 0 < c_ne c -> 0 <= c_nc c ->
  0 <= t < c_nt c -> 0 <= e < 12 -> zget (c_tte c) (12 * t + e) = Some ae -> ae <> -1 -> edge_consistent c ae -> edge_entry c ae t e f ->
  lies D3 CEdge e p -> neighbor_transforms D3 c t CEdge e = Some l ->
  forall x, In x (map (img D3 p) l) <->
    exists t' e' f', edge_entry c ae t' e' f' /\ x = (t', coordinates_transform_edge p e e' (Z.lxor f f')).
Proof.
  intros V PE PC Ht He EA NA CO EN L E. assert (PE' : 0 <= c_ne c) by lia.
  destruct (C66_listed D3 c t CEdge e l V PE' PC Ht He E) as (LS & LF & LE & LC & XS & XF & XE & XC).
  destruct (edge_info D3 c V PE' t e eq_refl Ht He) as (ets & F & RG).
  destruct (edge_found c t e ae f ets V PE Ht He EA NA CO EN F) as (G1 & G2).
  pose proof (lies_on _ _ _ _ L) as O. assert (I32 : int32s D3 p) by (apply closed_int32; eapply on_closed; eauto).
  assert (Hf : 0 <= f < 2) by (destruct EN as (? & ? & ? & _ & _ & _ & _ & _ & _ & X); exact X).
  assert (SELF : p = coordinates_transform_edge p e e (Z.lxor f f)) by (rewrite Z.lxor_nilpotent; symmetry; apply cte_self; auto).
  assert (TF : forall g, In g (touched_faces D3 CEdge e) <-> exists i, 0 <= i < 2 /\ g = edge_faces e i).
  { intros g. cbn [touched_faces In]. split.
    - intros [<-|[<-|[]]]; [exists 0|exists 1]; (split; [lia|auto]).
    - intros (i & Hi & ->). assert (A : i = 0 \/ i = 1) by lia. destruct A as [-> | ->]; auto. }
  intros x. rewrite in_map_iff. split.
  - intros (nt & <- & I). unfold img. destruct (n_type nt) eqn:T.
    + destruct (LS nt I T) as (-> & EQ). rewrite EQ by auto. exists t, e, f. split; [auto|]. rewrite <- SELF. auto.
    + destruct (LF nt I T) as (ft & If & Ff & _ & EQ). rewrite EQ. apply TF in If. destruct If as (i & Hi & Ei). rewrite Ei in Ff.
      pose proof (edge_faces_range e i He Hi) as FR.
      destruct (face_info D3 c V t _ Ht FR) as [(_ & _ & F3)|(t' & nf & o & T1 & T2 & Rn & R1 & R2 & N & M & Q & _ & F3 & _)]; rewrite F3 in Ff; [discriminate|].
      assert (EF : ft = expand_face_transform D3 (edge_faces e i) nf o) by congruence. assert (ET : n_tree nt = t') by congruence. rewrite EF, ET. clear Ff EF.
      destruct (edge_step e (edge_faces e i) nf o) as (e' & fl) eqn:ES.
      destruct (edge_face_point e i nf o p e' fl He Hi R1 R2 O ES) as (Re & Rf & ->).
      assert (AX : edge_across_face c t e t' e' fl).
      { exists i, (edge_faces e i), (nf + 6 * o). split; [auto|]. split; [auto|]. split; [exact T1|]. split; [exact T2|]. cbn [faces] in M, Q.
        split; [intros (A & B); apply N; split; [auto|]; rewrite B, Z.mod_small in M by exact FR; auto|].
        apply (edge_step_spec e i nf o e' fl He Hi R1 R2) in ES. rewrite M, Q. exact ES. }
      exists t', e', (Z.lxor f fl). split; [apply (proj2 CO t e f); auto|]. destruct (lxor_bit f fl Hf Rf) as (_ & -> & _). auto.
    + destruct (LE nt I T) as (ets' & fl & _ & Ie & F' & If & EQ). cbn [touched_edges In] in Ie. destruct Ie as [Ie|[]]. rewrite <- Ie in *.
      rewrite F in F'. injection F' as <-. rewrite (EQ _ O). destruct (G1 _ _ _ If) as (A & Rf).
      exists (n_tree nt), (n_neigh nt), (Z.lxor f fl). split; [auto|]. destruct (lxor_bit f fl Hf Rf) as (_ & -> & _). auto.
    + destruct (LC nt I T) as (_ & X & _). discriminate X.
  - intros (t' & e' & f' & EN' & ->).
    destruct (G2 t' e' f' EN') as [(-> & -> & ->)|[AX|I]].
    + destruct XS as (nt & In_ & T). destruct (LS nt In_ T) as (T1 & EQ). exists nt. split; [|auto]. unfold img. rewrite T1, EQ, <- SELF by auto. auto.
    + destruct AX as (i & g & code & Hi & Eg & T1 & T2 & N & Re & Rf & EC).
      pose proof (edge_faces_range e i He Hi) as FR. rewrite <- Eg in FR.
      destruct (face_info D3 c V t g Ht FR) as [(F1 & F2 & _)|(t1 & nf & o & F1 & F2 & Rn & B1 & B2 & N' & M & Q & _ & F3 & _)].
      { cbn [faces] in F1, F2. rewrite T1 in F1. rewrite T2 in F2. injection F1 as F1. injection F2 as F2. tauto. }
      cbn [faces] in F1, F2, M, Q, B1. assert (t1 = t') by congruence. assert (code = nf + 6 * o) by congruence. subst t1 code.
      rewrite M, Q in EC. rewrite Eg in EC.
      assert (ES : edge_step e (edge_faces e i) nf o = (e', Z.lxor f f')) by (apply edge_step_spec; auto).
      destruct (edge_face_point e i nf o p _ _ He Hi B1 B2 O ES) as (_ & _ & PT).
      destruct (XF g t' _ (proj2 (TF g) (ex_intro _ i (conj Hi Eg))) F3) as (nt & In_ & T & W1 & W2).
      destruct (LF nt In_ T) as (ft' & _ & F' & _ & EQ). rewrite W1, W2, F3 in F'.
      assert (EF : ft' = expand_face_transform D3 g nf o) by congruence. rewrite EF in EQ.
      exists nt. split; [|auto]. unfold img. rewrite W1, EQ. f_equal. rewrite Eg. exact PT.
    + destruct (XE e ets t' e' _ eq_refl (or_introl eq_refl) F I) as (nt & In_ & T & W1 & W2 & W3 & EQ).
      exists nt. split; [|auto]. unfold img. rewrite W1, (EQ _ O). auto.
Qed.

(** If every edge met through a face is in the list of the edge number, with the flip that the
    face connection implies, and none is there with both flips: a point inside of the edge has
    the same canonical coordinates as seen from every entry of the list, and these are canonical
    themselves. *)
Theorem C67_edge_canonical : forall c t e f t' e' f' ae p, conn_is_valid D3 c = Some true -> 0 < c_ne c -> 0 <= c_nc c ->
  0 <= t < c_nt c -> 0 <= e < 12 -> zget (c_tte c) (12 * t + e) = Some ae -> ae <> -1 -> edge_consistent c ae ->
  edge_entry c ae t e f -> edge_entry c ae t' e' f' -> lies D3 CEdge e p ->
  canonicalize D3 c t p = canonicalize D3 c t' (coordinates_transform_edge p e e' (Z.lxor f f')) /\
  exists r, canonicalize D3 c t p = Some r /\ canonicalize D3 c (fst r) (snd r) = Some r.
Proof.
  intros c t e f t' e' f' ae p V PE PC Ht He EA NA CO EN EN' L. assert (PE' : 0 <= c_ne c) by lia.
  assert (Hf : 0 <= f < 2) by (destruct EN as (? & ? & ? & _ & _ & _ & _ & _ & _ & X); exact X).
  destruct (nts_parts D3 c V PE' PC t CEdge e Ht He) as (l & E & _).
  assert (G : forall t' e' f', edge_entry c ae t' e' f' -> canonicalize D3 c t p = canonicalize D3 c t' (coordinates_transform_edge p e e' (Z.lxor f f'))).
  { clear t' e' f' EN'. intros t' e' f' EN'.
    destruct (entry_number c t e ae t' e' f' V PE Ht He EA NA EN') as (Ht' & EA').
    assert (X : 0 <= e' < 12 /\ 0 <= f' < 2) by (destruct EN' as (? & ? & ? & _ & _ & _ & _ & _ & X); exact X). destruct X as (He' & Hf').
    destruct (nts_parts D3 c V PE' PC t' CEdge e' Ht' He') as (l' & E' & _).
    pose proof (cte_lies p e e' (Z.lxor f f') He He' L) as L'.
    apply (C67_same_images D3 c t p CEdge e l t' _ CEdge e' l' V PE' PC Ht Ht' He He' L L' E E').
    intros x. rewrite (edge_images_spec c t e f ae l p V PE PC Ht He EA NA CO EN L E), (edge_images_spec c t' e' f' ae l' _ V PE PC Ht' He' EA' NA CO EN' L' E').
    split; intros (t2 & e2 & f2 & EN2 & ->); exists t2, e2, f2; (split; [exact EN2|]);
      assert (X : 0 <= e2 < 12 /\ 0 <= f2 < 2) by (destruct EN2 as (? & ? & ? & _ & _ & _ & _ & _ & X); exact X); destruct X as (He2 & Hf2);
      rewrite cte_comp by (auto; apply lies_on; auto); reflexivity. }
  split; [apply G; auto|].
  destruct (C67_minimum D3 c t p V PE' PC Ht (on_closed _ _ _ _ (lies_on _ _ _ _ L))) as (r & Er & _ & M).
  exists r. split; [exact Er|]. destruct (M CEdge e l He L E) as (I & _).
  apply (edge_images_spec c t e f ae l p V PE PC Ht He EA NA CO EN L E) in I. destruct I as (t1 & e1 & f1 & EN1 & ->). cbn [fst snd].
  rewrite <- (G t1 e1 f1 EN1). exact Er.
Qed.
Print Assumptions C67_edge_canonical.

(** *** Examples *)

(** a face point, a corner and an edge point; all results are lower than the argument *)
Example C67_example :
  canonicalize D2 twisted 1 (2 ^ 30, 5, 0) = Some (0, (0, 2 ^ 30 - 5, 0)) /\
  find_face_transform D2 twisted 1 1 <> Some None /\
  lies D2 CFace 1 (2 ^ 30, 5, 0) /\
  canonicalize D2 twisted 1 (2 ^ 30, 2 ^ 30, 0) = Some (0, (0, 0, 0)) /\
  canonicalize D3 periodic3 0 (2 ^ 30, 7, 2 ^ 30) = Some (0, (0, 7, 0)) /\
  lies D3 CEdge 7 (2 ^ 30, 7, 2 ^ 30) /\
  canonicalize D3 periodic3 0 (2 ^ 30, 2 ^ 30, 2 ^ 30) = Some (0, (0, 0, 0)).
Proof.
  split; [vm_compute; reflexivity|]. split; [vm_compute; discriminate|].
  split; [split; [intros _; reflexivity|]; intros i Hi; cbn in Hi; assert (A : i = 0 \/ i = 1) by lia; destruct A as [-> | ->]; vm_compute; auto|].
  split; [vm_compute; reflexivity|]. split; [vm_compute; reflexivity|].
  split; [split; [discriminate|]; intros i Hi; cbn in Hi; assert (A : i = 0 \/ i = 1 \/ i = 2) by lia; destruct A as [-> | [-> | ->]]; vm_compute; auto|].
  vm_compute. reflexivity.
Qed.
(** the conditions on the numbers hold for these *)
Example C67_example_corners : corner_consistent D2 twisted 0 /\ corner_consistent D3 periodic3 0.
Proof.
  split; intros t k t' k' Ht Hk _ X.
  - assert (B : 0 <= t' < 2 /\ 0 <= k' < 4).
    { destruct X as [(i & f & code & Hi & Ef & T1 & T2 & N & ->)|(X & _)]; [|discriminate X].
      pose proof (corner_faces_range D2 k i Hk Hi) as FR. rewrite <- Ef in FR.
      destruct (face_info D2 twisted (proj1 (proj2 examples_valid)) t f Ht FR) as [(F1 & F2 & _)|(t1 & nf & o & F1 & F2 & Rn & B1 & B2 & N' & M & Q & _)];
        rewrite T1 in F1; rewrite T2 in F2; [exfalso; apply N; split; congruence|].
      assert (Q1 : t' = t1) by congruence. assert (Q2 : code = nf + faces D2 * o) by congruence. rewrite Q1, Q2, M, Q. split; [exact Rn|]. rewrite Ef. apply (corner_face_point D2 k i nf o Hk Hi B1 B2). }
    assert (A : t' = 0 \/ t' = 1) by lia. assert (C : k' = 0 \/ k' = 1 \/ k' = 2 \/ k' = 3) by lia.
    destruct A as [-> | ->], C as [-> | [-> | [-> | ->]]]; reflexivity.
  - assert (B : 0 <= t' < 1 /\ 0 <= k' < 8).
    { destruct X as [(i & f & code & Hi & Ef & T1 & T2 & N & ->)|(_ & _ & i & e & ae & ets & ne & nf & Hi & Ee & EA & _ & F & If & ->)].
      - pose proof (corner_faces_range D3 k i Hk Hi) as FR. rewrite <- Ef in FR.
        destruct (face_info D3 periodic3 (proj2 (proj2 examples_valid)) t f Ht FR) as [(F1 & F2 & _)|(t1 & nf & o & F1 & F2 & Rn & B1 & B2 & N' & M & Q & _)];
          rewrite T1 in F1; rewrite T2 in F2; [exfalso; apply N; split; congruence|].
        assert (Q1 : t' = t1) by congruence. assert (Q2 : code = nf + faces D3 * o) by congruence. rewrite Q1, Q2, M, Q. split; [exact Rn|]. rewrite Ef. apply (corner_face_point D3 k i nf o Hk Hi B1 B2).
      - pose proof (corner_edges_range k i Hk Hi) as ER. rewrite <- Ee in ER.
        destruct (edge_info D3 periodic3 (proj2 (proj2 examples_valid)) ltac:(cbn; lia) t e eq_refl Ht ER) as (ets' & F' & R). rewrite F in F'. injection F' as <-.
        destruct (R _ _ _ If) as (R0 & R1 & R2). split; [exact R0|]. rewrite Ee. apply (corner_edge_point k i ne nf Hk Hi R1 R2). }
    assert (t' = 0) by lia. subst t'.
    assert (C : k' = 0 \/ k' = 1 \/ k' = 2 \/ k' = 3 \/ k' = 4 \/ k' = 5 \/ k' = 6 \/ k' = 7) by lia.
    destruct C as [-> | [-> | [-> | [-> | [-> | [-> | [-> | ->]]]]]]]; reflexivity.
Qed.
Example C67_example_edges : edge_consistent periodic3 1 /\ edge_entry periodic3 1 0 7 0 /\ edge_entry periodic3 1 0 4 0 /\
  coordinates_transform_edge (2 ^ 30, 7, 2 ^ 30) 7 4 0 = (0, 7, 0).
Proof.
  assert (I : forall e, 4 <= e < 8 -> edge_entry periodic3 1 0 e 0).
  { intros e He. exists 4, 8, e. split; [reflexivity|]. split; [reflexivity|]. split; [lia|].
    assert (A : e = 4 \/ e = 5 \/ e = 6 \/ e = 7) by lia. destruct A as [-> | [-> | [-> | ->]]]; (split; [reflexivity|]; split; [reflexivity|]; lia). }
  assert (EE : forall t e f, edge_entry periodic3 1 t e f -> t = 0 /\ f = 0 /\ 4 <= e < 8).
  { intros t e f (b & e0 & j & B1 & B2 & B3 & G1 & G2 & R1 & R2). cbn in B1, B2. injection B1 as <-. injection B2 as <-.
    assert (A : j = 4 \/ j = 5 \/ j = 6 \/ j = 7) by lia.
    destruct A as [-> | [-> | [-> | ->]]]; cbn -[Z.add Z.mul] in G1, G2; injection G1 as <-;
      (assert (B : f = 0 \/ f = 1) by lia; destruct B as [-> | ->]; injection G2 as G2; lia). }
  split; [split|split; [apply I; lia|split; [apply I; lia|vm_compute; reflexivity]]].
  - intros t e f f' H H'. apply EE in H. apply EE in H'. lia.
  - intros t e f t' e' fl H (i & g & code & Hi & -> & T1 & T2 & N & X). apply EE in H. destruct H as (-> & -> & He).
    assert (A : e = 4 \/ e = 5 \/ e = 6 \/ e = 7) by lia. assert (B : i = 0 \/ i = 1) by lia.
    assert (C : exists nf, code = nf /\ 0 <= nf < 6).
    { destruct A as [-> | [-> | [-> | ->]]], B as [-> | ->]; vm_compute in T2; injection T2 as <-; eexists; (split; [reflexivity|lia]). }
    destruct C as (nf & -> & Hn). rewrite Z.mod_small, Z.div_small in X by lia.
    apply (edge_step_spec e i nf 0 e' fl ltac:(lia) Hi Hn ltac:(lia)) in X.
    destruct A as [-> | [-> | [-> | ->]]], B as [-> | ->]; vm_compute in T1, T2; injection T1 as <-; injection T2 as <-; vm_compute in X; injection X as <- <-; apply I; lia.
Qed.

(** Without such numbers the coordinates are not canonical, although p4est_connectivity_is_valid
    accepts the connectivity: for two by two trees without listed corners, the corner that they
    share is seen from tree 3 as a corner of tree 1, and from tree 1 as a corner of tree 0. *)
Definition two_by_two : conn :=
  mkconn 0 4 0 0 None None 0 None [0; 1; 0; 2; 0; 1; 1; 3; 2; 3; 0; 2; 2; 3; 1; 3] [0; 0; 2; 2; 1; 1; 2; 2; 0; 0; 3; 3; 1; 1; 3; 3]
         [] [] [] [] [] [0] [] [].
Theorem C67_not_canonical_refuted : exists c t p t' p', conn_is_valid D2 c = Some true /\ 0 <= t < c_nt c /\ closed D2 p /\
  canonicalize D2 c t p = Some (t', p') /\ canonicalize D2 c t' p' <> Some (t', p') /\
  exists f ft, find_face_transform D2 c t f = Some (Some (t', ft)) /\ coordinates_transform_face D2 p ft = p'.
Proof.
  exists two_by_two, 3, (0, 0, 0), 1, (0, 2 ^ 30, 0). split; [vm_compute; reflexivity|]. split; [vm_compute; split; congruence|].
  split; [split; [intros _; reflexivity|]; intros i Hi; cbn in Hi; assert (A : i = 0 \/ i = 1) by lia; destruct A as [-> | ->]; vm_compute; split; congruence|].
  split; [vm_compute; reflexivity|]. split; [vm_compute; discriminate|].
  exists 2, (expand_face_transform D2 2 3 0). split; vm_compute; reflexivity.
Qed.
Print Assumptions C67_not_canonical_refuted.
