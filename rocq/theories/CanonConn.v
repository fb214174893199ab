(** * Neighbor transforms of a valid connectivity *)

From Coq Require Import ZArith List Bool Lia ZifyBool.
From Verif Require Import Quad Spec Morton CompareLemmas Neighbor PropertiesNeighbor Transform PropertiesTransform Partition Conn ConnLemmas ConnBounds PropertiesConn
  Canon CanonLemmas CanonRun.
Import ListNotations.
Open Scope Z_scope.

Lemma reverse_on d nt p : nt_ok d nt = true -> on d (n_type nt) (n_neigh nt) p ->
  fits_back d nt p /\ on d (n_type nt) (n_self nt) (nt_reverse d nt p).
Proof.
  intros H (F & B).
  assert (K : forall i, 0 <= i < nd d -> let v := vget (n_sign nt) i * (vget p i - vget (n_oneigh nt) i) + vget (n_oself nt) (vget (n_perm nt) i) in
    match at_axis (n_type nt) (n_self nt) (vget (n_perm nt) i) with None => 0 <= v <= ROOT_LEN | Some b => v = side b end).
  { intros i Hi. pose proof (B i Hi) as Bi. destruct (nt_ok_entry d nt i H Hi) as (S1 & O1 & O2 & [(E1 & E2 & K)|(b & b' & E1 & E2 & K1 & K2 & K3)]);
    rewrite E2 in Bi; rewrite E1; cbv zeta.
    - destruct K as [(K1 & K2)|(-> & K)]; [|lia]. destruct S1 as [-> | ->]; lia.
    - rewrite Bi, K1, K2. lia. }
  assert (FI : fits_back d nt p).
  { intros i Hi. specialize (K i Hi). cbv zeta in K. destruct (at_axis _ _ (vget (n_perm nt) i)) as [[|]|]; cbn [side] in K; change ROOT_LEN with (2 ^ 30) in K; lia. }
  split; [exact FI|]. split; [apply reverse_flat; auto|]. intros j Hj. destruct (perm_inv _ _ H j Hj) as (i & Hi & <-).
  pose proof (reverse_get d nt p i H Hi) as R. cbv zeta in R. pose proof (i32_id _ (FI i Hi)) as X. rewrite R, X. apply K. auto.
Qed.

(** an interface that contains another one *)
Definition part (d : dim) (ty : ctype) (k : Z) (ty' : ctype) (k' : Z) : bool :=
  forallb (fun i => match at_axis ty' k' i, at_axis ty k i with None, _ => true | Some b, Some b' => Bool.eqb b b' | _, _ => false end) (axes d).
Lemma part_on d ty k ty' k' p : part d ty k ty' k' = true -> on d ty k p -> on d ty' k' p.
Proof.
  intros H O. pose proof (on_closed _ _ _ _ O) as (_ & C). destruct O as (F & B). split; [auto|]. intros i Hi.
  unfold part in H. rewrite forallb_forall in H. specialize (H i (proj2 (axes_in d i) Hi)). specialize (B i Hi). specialize (C i Hi).
  destruct (at_axis ty' k' i) as [b|]; [|auto]. destruct (at_axis ty k i) as [b'|]; [|discriminate]. apply eqb_prop in H. congruence.
Qed.
Lemma touched_range d ty k : 0 <= k < n_index d ty ->
  forallb (fun f => (0 <=? f) && (f <? faces d) && part d ty k CFace f) (touched_faces d ty k) = true /\
  (d = D3 -> forallb (fun e => (0 <=? e) && (e <? 12) && part d ty k CEdge e) (touched_edges ty k) = true).
Proof.
  intros Hk.
  assert (A : zall (n_index d ty) (fun k => forallb (fun f => (0 <=? f) && (f <? faces d) && part d ty k CFace f) (touched_faces d ty k) &&
     (negb (is3 d) || forallb (fun e => (0 <=? e) && (e <? 12) && part d ty k CEdge e) (touched_edges ty k))) = true) by (destruct d, ty; vm_compute; reflexivity).
  pose proof (zall_spec _ _ k A Hk) as A1. cbv beta in A1. apply andb_true_iff in A1 as (A1 & A2). split; [auto|]. intros ->. exact A2.
Qed.

Section Valid.
  Variables (d : dim) (c : conn).
  Hypothesis V : conn_is_valid d c = Some true.
  Hypothesis PE : 0 <= c_ne c.
  Hypothesis PC : 0 <= c_nc c.

  Lemma face_info t f : 0 <= t < c_nt c -> 0 <= f < faces d ->
    (zget (c_ttt c) (faces d * t + f) = Some t /\ zget (c_ttf c) (faces d * t + f) = Some f /\ find_face_transform d c t f = Some None) \/
    exists nt nf o, zget (c_ttt c) (faces d * t + f) = Some nt /\ zget (c_ttf c) (faces d * t + f) = Some (nf + faces d * o) /\
      0 <= nt < c_nt c /\ 0 <= nf < faces d /\ 0 <= o < half d /\ ~ (nt = t /\ nf = f) /\
      (nf + faces d * o) mod faces d = nf /\ (nf + faces d * o) / faces d = o /\ Z.rem (nf + faces d * o) (faces d) = nf /\
      find_face_transform d c t f = Some (Some (nt, expand_face_transform d f nf o)) /\
      zget (c_ttt c) (faces d * nt + nf) = Some t /\ zget (c_ttf c) (faces d * nt + nf) = Some (f + faces d * o) /\
      find_face_transform d c nt nf = Some (Some (t, expand_face_transform d nf f o)).
  Proof.
    intros Ht Hf. destruct (conn_valid_inv _ _ V) as (ne & nc & _ & _ & _ & _ & TV).
    destruct (valid_tree_inv _ _ _ _ _ (TV t Ht)) as (FV & _).
    destruct (valid_face_true _ _ _ _ (FV f Hf)) as (nt & code & E1 & E2 & Rn & Rc & K).
    assert (Fp : 0 < faces d) by (clear; destruct d; cbn; lia).
    replace (t * faces d + f) with (faces d * t + f) in E1, E2 by lia.
    destruct (dim_div_mod d code ltac:(lia)) as (M & R1 & R2).
    destruct K as [(-> & ->)|(NE & K1 & K2)].
    - left. split; [auto|]. split; [auto|]. unfold find_face_transform. rewrite E1, E2, R1. rewrite Z.mod_small by lia. rewrite !Z.eqb_refl. reflexivity.
    - right. pose proof (Z.div_mod code (faces d) ltac:(lia)) as DM.
      set (nf := code mod faces d) in *. set (o := code / faces d) in *.
      assert (Ho : 0 <= o < half d).
      { unfold o. split; [apply Z.div_pos; lia|]. apply Z.div_lt_upper_bound; lia. }
      assert (CE : code = nf + faces d * o) by lia.
      exists nt, nf, o. rewrite <- CE. split; [auto|]. split; [auto|]. split; [auto|]. split; [auto|]. split; [auto|]. split; [lia|].
      split; [auto|]. split; [auto|]. split; [auto|]. split.
      { unfold find_face_transform. rewrite E1, E2, R1, R2. destruct ((nt =? t) && (nf =? f)) eqn:G; [lia|]. reflexivity. }
      replace (faces d * nt + nf) with (nt * faces d + nf) by lia. split; [auto|]. split; [auto|].
      unfold find_face_transform. replace (faces d * nt + nf) with (nt * faces d + nf) by lia. rewrite K1, K2.
      destruct (dim_div_mod d (f + faces d * o) ltac:(lia)) as (_ & -> & ->).
      rewrite (Z.mul_comm (faces d) o), Z.mod_add, Z.div_add, (Z.mod_small f), (Z.div_small f) by lia.
      destruct ((t =? nt) && (f =? nf)) eqn:G2; [lia|]. reflexivity.
  Qed.
  Lemma edge_info t e : d = D3 -> 0 <= t < c_nt c -> 0 <= e < 12 ->
    exists ets, find_edge_transform c t e = Some ets /\ forall t' e' fl, In (t', e', fl) ets -> 0 <= t' < c_nt c /\ 0 <= e' < 12 /\ 0 <= fl < 2.
  Proof.
    intros -> Ht He. destruct (Z.eq_dec (c_ne c) 0) as [E0|N0].
    { exists []. unfold find_edge_transform. rewrite E0. split; [reflexivity|intros ? ? ? []]. }
    destruct (conn_valid_inv _ _ V) as (ne & nc & _ & _ & _ & _ & TV).
    destruct (valid_tree_inv _ _ _ _ _ (TV t Ht)) as (_ & _ & EV & _). specialize (EV eq_refl ltac:(lia) e He).
    destruct (valid_edge_true _ _ _ _ EV) as (ae & E1 & _). replace (t * 12 + e) with (12 * t + e) in E1 by lia.
    destruct (Z.eq_dec ae (-1)) as [->|N].
    { exists []. unfold find_edge_transform. destruct (c_ne c =? 0) eqn:X; [lia|]. rewrite E1. split; [reflexivity|intros ? ? ? []]. }
    destruct (C49_edge_neighbors c t e ae V Ht He ltac:(lia) E1 N) as (ets & F & A & _). exists ets. split; [auto|].
    intros t' e' fl I. destruct (A _ _ _ I) as (A1 & A2 & A3 & _). lia.
  Qed.
  Lemma corner_info t k : 0 <= t < c_nt c -> 0 <= k < children d ->
    exists l, find_corner_transform d c t k = Some l /\ forall t' k', In (t', k') l -> 0 <= t' < c_nt c /\ 0 <= k' < children d.
  Proof.
    intros Ht Hk. destruct (Z.eq_dec (c_nc c) 0) as [E0|N0].
    { exists []. unfold find_corner_transform. rewrite E0. split; [reflexivity|intros ? ? []]. }
    destruct (conn_valid_inv _ _ V) as (ne & nc & _ & _ & _ & _ & TV).
    destruct (valid_tree_inv _ _ _ _ _ (TV t Ht)) as (_ & _ & _ & _ & KV). specialize (KV ltac:(lia) k Hk).
    destruct (valid_corner_true _ _ _ _ _ KV) as (ac & E1 & _). replace (t * children d + k) with (children d * t + k) in E1 by lia.
    destruct (Z.eq_dec ac (-1)) as [->|N].
    { exists []. unfold find_corner_transform. destruct (c_nc c =? 0) eqn:X; [lia|]. rewrite E1. split; [reflexivity|intros ? ? []]. }
    destruct (C48_corner_neighbors d c t k ac V Ht Hk ltac:(lia) PE E1 N) as (l & F & _ & A). exists l. split; [auto|].
    intros t' k' I. apply A in I. tauto.
  Qed.

  (** what is known of a listed transform *)
  Definition good (t : Z) (nt : ntrans) : Prop :=
    nt_ok d nt = true /\ 0 <= n_tree nt < c_nt c /\ 0 <= n_self nt < n_index d (n_type nt) /\ 0 <= n_neigh nt < n_index d (n_type nt).

  Lemma face_nts_info t f : 0 <= t < c_nt c -> 0 <= f < faces d ->
    exists l, face_nts d c t f = Some l /\
      (forall nt, In nt l -> good t nt /\ n_type nt = CFace /\ n_self nt = f) /\
      (forall p, face_images d c t p f = Some (map (fun nt => (n_tree nt, nt_forward d nt p)) l)) /\
      (forall nt, In nt l <-> exists nf o, 0 <= nf < faces d /\ 0 <= o < half d /\ ~ (n_tree nt = t /\ nf = f) /\
         zget (c_ttt c) (faces d * t + f) = Some (n_tree nt) /\ zget (c_ttf c) (faces d * t + f) = Some (nf + faces d * o) /\
         nt = with_maps CFace (n_tree nt) f nf (face_nt d (expand_face_transform d f nf o))).
  Proof.
    intros Ht Hf. unfold face_nts, face_images. assert (Fp : 0 < faces d) by (clear; destruct d; cbn; lia).
    destruct (face_info t f Ht Hf) as [(E1 & E2 & E3)|(nt & nf & o & E1 & E2 & Rn & Rf & Ro & N & M & Q & R & E3 & _)]; rewrite E3, E1, E2.
    - exists []. split; [auto|]. split; [intros ? []|]. split; [rewrite !Z.eqb_refl; reflexivity|]. intros nt. split; [intros []|].
      intros (nf & o & R1 & R2 & N & F1 & F2 & _). injection F1 as F1. injection F2 as F2. apply N. split; [auto|].
      assert (o = 0) by nia. subst o. lia.
    - rewrite R. eexists. split; [reflexivity|]. split; [|split].
      + intros x [<-|[]]. split; [|split; reflexivity]. split; [apply face_nt_ok; auto|]. cbn. auto.
      + intros p. destruct ((nt =? t) && (nf + faces d * o =? f)) eqn:G.
        { exfalso. apply N. assert (H : nf + faces d * o = f) by lia. assert (o = 0) by nia. split; [lia|]. subst o. lia. }
        cbn [map]. rewrite face_agree by auto. reflexivity.
      + intros x. cbn [In]. split.
        * intros [<-|[]]. exists nf, o. cbn [n_tree with_maps]. repeat (split; [auto|]). reflexivity.
        * intros (nf' & o' & R1 & R2 & N' & F1 & F2 & ->). cbn [n_tree with_maps] in *. left. injection F1 as <-. injection F2 as F2.
          assert (nf' = nf /\ o' = o) as (-> & ->).
          { assert (X : (nf' + faces d * o') mod faces d = nf') by (rewrite (Z.mul_comm (faces d)), Z.mod_add by lia; apply Z.mod_small; lia).
            rewrite <- F2, M in X. subst nf'. split; [auto|nia]. }
          reflexivity.
  Qed.
  Lemma edge_nts_info t e : d = D3 -> 0 <= t < c_nt c -> 0 <= e < 12 ->
    exists l, edge_nts c t e = Some l /\
      (forall nt, In nt l -> good t nt /\ n_type nt = CEdge /\ n_self nt = e) /\
      (forall p, on d CEdge e p -> edge_images c t p e = Some (map (fun nt => (n_tree nt, nt_forward d nt p)) l)) /\
      (forall nt, In nt l <-> exists ets ne fl, find_edge_transform c t e = Some ets /\ In (n_tree nt, ne, fl) ets /\
         nt = with_maps CEdge (n_tree nt) e ne (edge_nt e ne fl)).
  Proof.
    intros D Ht He. unfold edge_nts, edge_images. destruct (edge_info t e D Ht He) as (ets & E & R). rewrite E.
    eexists. split; [reflexivity|]. split; [|split].
    - intros nt I. apply in_map_iff in I. destruct I as (((t' & e') & fl) & <- & I). destruct (R _ _ _ I) as (R1 & R2 & R3).
      split; [|split; reflexivity]. split; [rewrite D; apply edge_nt_ok; auto|]. cbn [n_tree n_self n_neigh n_type with_maps n_index]. rewrite D. cbn. auto.
    - intros p O. f_equal. rewrite map_map. apply map_ext_in. intros ((t' & e') & fl) I. destruct (R _ _ _ I) as (R1 & R2 & R3).
      f_equal. rewrite D in *. rewrite edge_agree by auto. reflexivity.
    - intros nt. rewrite in_map_iff. split.
      + intros (((t' & e') & fl) & <- & I). exists ets, e', fl. cbn [n_tree with_maps]. auto.
      + intros (ets' & ne & fl & F & I & ->). injection F as <-. exists (n_tree nt, ne, fl). cbn [n_tree with_maps] in *. auto.
  Qed.
  Lemma corner_nts_info t k : 0 <= t < c_nt c -> 0 <= k < children d ->
    exists l, corner_nts d c t k = Some l /\
      (forall nt, In nt l -> good t nt /\ n_type nt = CCorner /\ n_self nt = k) /\
      (forall p, on d CCorner k p -> corner_images d c t k = Some (map (fun nt => (n_tree nt, nt_forward d nt p)) l)) /\
      (forall nt, In nt l <-> exists cts nk, find_corner_transform d c t k = Some cts /\ In (n_tree nt, nk) cts /\
         nt = with_maps CCorner (n_tree nt) k nk (corner_nt d k nk)).
  Proof.
    intros Ht Hk. unfold corner_nts, corner_images. destruct (corner_info t k Ht Hk) as (cts & E & R). rewrite E.
    eexists. split; [reflexivity|]. split; [|split].
    - intros nt I. apply in_map_iff in I. destruct I as ((t' & k') & <- & I). destruct (R _ _ I) as (R1 & R2).
      split; [|split; reflexivity]. split; [apply corner_nt_ok; auto|]. cbn. auto.
    - intros p O. f_equal. rewrite map_map. apply map_ext_in. intros (t' & k') I. destruct (R _ _ I) as (R1 & R2).
      f_equal. cbn [fst snd]. rewrite corner_agree by auto. reflexivity.
    - intros nt. rewrite in_map_iff. split.
      + intros ((t' & k') & <- & I). exists cts, k'. cbn [n_tree with_maps fst snd]. auto.
      + intros (cts' & nk & F & I & ->). injection F as <-. exists (n_tree nt, nk). cbn [n_tree with_maps fst snd] in *. auto.
  Qed.

  Lemma touched_face ty k f : 0 <= k < n_index d ty -> In f (touched_faces d ty k) -> 0 <= f < faces d /\ part d ty k CFace f = true.
  Proof. intros Hk I. destruct (touched_range d ty k Hk) as (A & _). rewrite forallb_forall in A. specialize (A f I). lia. Qed.
  Lemma touched_edge ty k e : d = D3 -> 0 <= k < n_index d ty -> In e (touched_edges ty k) -> 0 <= e < 12 /\ part d ty k CEdge e = true.
  Proof. intros D Hk I. destruct (touched_range d ty k Hk) as (_ & A). specialize (A D). rewrite forallb_forall in A. specialize (A e I). lia. Qed.

  (** the list of transforms, taken apart *)
  Lemma nts_parts t ty k : 0 <= t < c_nt c -> 0 <= k < n_index d ty ->
    exists l, neighbor_transforms d c t ty k = Some l /\
      forall nt, In nt l <-> nt = self_nt t \/
        (exists f lf, In f (touched_faces d ty k) /\ face_nts d c t f = Some lf /\ In nt lf) \/
        (d = D3 /\ exists e le, In e (touched_edges ty k) /\ edge_nts c t e = Some le /\ In nt le) \/
        (ty = CCorner /\ exists lc, corner_nts d c t k = Some lc /\ In nt lc).
  Proof.
    intros Ht Hk. unfold neighbor_transforms.
    destruct (gather_some (face_nts d c t) (touched_faces d ty k)) as (lf & EF).
    { intros f I. destruct (touched_face ty k f Hk I) as (Hf & _). destruct (face_nts_info t f Ht Hf) as (l & E & _). eauto. }
    assert (EE : exists le, (if is3 d then gather (edge_nts c t) (touched_edges ty k) else Some []) = Some le /\
      forall nt, In nt le <-> d = D3 /\ exists e l, In e (touched_edges ty k) /\ edge_nts c t e = Some l /\ In nt l).
    { destruct (is3 d) eqn:D.
      - assert (D' : d = D3) by (clear - D; destruct d; [discriminate|auto]).
        destruct (gather_some (edge_nts c t) (touched_edges ty k)) as (le & E).
        { intros e I. destruct (touched_edge ty k e D' Hk I) as (He & _). destruct (edge_nts_info t e D' Ht He) as (l & E & _). eauto. }
        exists le. split; [auto|]. intros nt. rewrite (gather_spec _ _ _ E). tauto.
      - exists []. split; [auto|]. intros nt. split; [intros []|]. intros (-> & _). discriminate. }
    destruct EE as (le & -> & SE).
    assert (EC : exists lc, match ty with CCorner => corner_nts d c t k | _ => Some [] end = Some lc /\
      forall nt, In nt lc <-> ty = CCorner /\ exists l, corner_nts d c t k = Some l /\ In nt l).
    { destruct ty; try (exists []; split; [auto|]; intros nt; split; [intros []|intros (X & _); discriminate]).
      destruct (corner_nts_info t k Ht Hk) as (l & E & _). exists l. split; [auto|]. intros nt. rewrite E. split; [eauto|].
      intros (_ & l' & F & I). injection F as <-. auto. }
    destruct EC as (lc & -> & SC). rewrite EF. eexists. split; [reflexivity|].
    intros nt. cbn [In]. rewrite !in_app_iff, (gather_spec _ _ _ EF), SE, SC. split.
    - intros [<-|[X|X]]; tauto.
    - intros [->|X]; tauto.
  Qed.

  Lemma nts_good t ty k l nt : 0 <= t < c_nt c -> 0 <= k < n_index d ty -> neighbor_transforms d c t ty k = Some l -> In nt l ->
    good t nt /\ forall p, on d ty k p -> on d (n_type nt) (n_self nt) p.
  Proof.
    intros Ht Hk E I. destruct (nts_parts t ty k Ht Hk) as (l' & E' & S1). rewrite E in E'. injection E' as <-. apply S1 in I.
    destruct I as [->|[(f & lf & If & Ef & I)|[(D & e & le & Ie & Ee & I)|(-> & lc & Ec & I)]]].
    - split; [split; [apply self_nt_ok|cbn; lia]|]. intros p O. cbn. pose proof (on_closed _ _ _ _ O) as (A & B). split; [auto|]. exact B.
    - destruct (touched_face ty k f Hk If) as (Hf & P). destruct (face_nts_info t f Ht Hf) as (l0 & E0 & A & _).
      rewrite Ef in E0. injection E0 as <-. destruct (A nt I) as (G & T1 & T2). split; [auto|]. intros p O. rewrite T1, T2. eapply part_on; eauto.
    - destruct (touched_edge ty k e D Hk Ie) as (He & P). destruct (edge_nts_info t e D Ht He) as (l0 & E0 & A & _).
      rewrite Ee in E0. injection E0 as <-. destruct (A nt I) as (G & T1 & T2). split; [auto|]. intros p O. rewrite T1, T2. eapply part_on; eauto.
    - destruct (corner_nts_info t k Ht Hk) as (l0 & E0 & A & _). rewrite Ec in E0. injection E0 as <-.
      destruct (A nt I) as (G & T1 & T2). split; [auto|]. intros p O. rewrite T1, T2. auto.
  Qed.

  (** the loops of canonicalize visit the images under the neighbor transforms *)
  Lemma canonicalize_images t ty k p l : 0 <= t < c_nt c -> 0 <= k < n_index d ty -> lies d ty k p -> neighbor_transforms d c t ty k = Some l ->
    exists imgs, canonicalize d c t p = Some (fold_left (lower d) imgs (t, p)) /\
      forall x, In x ((t, p) :: imgs) <-> exists nt, In nt l /\ x = (n_tree nt, nt_forward d nt p).
  Proof.
    intros Ht Hk L EL. destruct (nts_parts t ty k Ht Hk) as (l' & E' & S1). rewrite EL in E'. injection E' as <-.
    pose proof (lies_on _ _ _ _ L) as O. pose proof (closed_int32 _ _ (on_closed _ _ _ _ O)) as I32.
    assert (SELF : nt_forward d (self_nt t) p = p).
    { apply (vget_ext d); [apply forward_flat|apply I32|]. intros i Hi. rewrite forward_get by auto.
      assert (X : exact (self_nt t) p i = vget p i).
      { unfold exact. assert (A : i = 0 \/ i = 1 \/ i = 2) by (clear - Hi; destruct d; cbn in Hi; lia).
        cbn [n_perm n_sign n_oself n_oneigh self_nt]. destruct A as [->|[->| ->]]; cbn [vget Z.eqb Pos.eqb]; lia. }
      rewrite X. apply i32_id. apply I32. auto. }
    destruct (touched_lies d ty k p L Hk) as (N & TF & TE & TC).
    set (im := fun nt => (n_tree nt, nt_forward d nt p)).
    (* faces *)
    destruct (gather_some (face_images d c t p) (filter (contact p) (count (faces d)))) as (gf & GF).
    { intros f I. apply TF in I. destruct (touched_face ty k f Hk I) as (Hf & _). destruct (face_nts_info t f Ht Hf) as (lf & _ & _ & A & _). eauto. }
    assert (SF : forall x, In x gf <-> exists f lf, In f (touched_faces d ty k) /\ face_nts d c t f = Some lf /\ In x (map im lf)).
    { intros x. rewrite (gather_spec _ _ _ GF). split.
      - intros (f & ys & I & F & I'). apply TF in I. destruct (touched_face ty k f Hk I) as (Hf & _).
        destruct (face_nts_info t f Ht Hf) as (lf & E & _ & A & _). rewrite A in F. injection F as <-. eauto.
      - intros (f & lf & I & E & I'). destruct (touched_face ty k f Hk I) as (Hf & _). destruct (face_nts_info t f Ht Hf) as (lf' & E' & _ & A & _).
        rewrite E in E'. injection E' as <-. exists f, (map im lf). split; [apply TF; auto|]. split; [apply A|auto]. }
    unfold canonicalize. rewrite !take_fold. rewrite N, GF. cbn [take].
    assert (FIN : forall imgs, (forall x, In x imgs <-> (exists f lf, In f (touched_faces d ty k) /\ face_nts d c t f = Some lf /\ In x (map im lf)) \/
        (d = D3 /\ exists e le, In e (touched_edges ty k) /\ edge_nts c t e = Some le /\ In x (map im le)) \/
        (ty = CCorner /\ exists lc, corner_nts d c t k = Some lc /\ In x (map im lc))) ->
      forall x, In x ((t, p) :: imgs) <-> exists nt, In nt l /\ x = im nt).
    { intros imgs H x. cbn [In]. rewrite H. split.
      - intros [<-|[(f & lf & A & B & C)|[(D & e & le & A & B & C)|(A & lc & B & C)]]].
        + exists (self_nt t). split; [apply S1; auto|]. unfold im. rewrite SELF. reflexivity.
        + apply in_map_iff in C. destruct C as (nt & <- & C). exists nt. split; [|auto]. apply S1. right. left. eauto.
        + apply in_map_iff in C. destruct C as (nt & <- & C). exists nt. split; [|auto]. apply S1. right. right. left. split; [auto|]. exists e, le. auto.
        + apply in_map_iff in C. destruct C as (nt & <- & C). exists nt. split; [|auto]. apply S1. right. right. right. split; [auto|]. exists lc. auto.
      - intros (nt & I & ->). apply S1 in I. destruct I as [->|[(f & lf & A & B & C)|[(D & e & le & A & B & C)|(A & lc & B & C)]]].
        + left. unfold im. rewrite SELF. reflexivity.
        + right. left. exists f, lf. split; [auto|]. split; [auto|]. apply in_map. auto.
        + right. right. left. split; [auto|]. exists e, le. split; [auto|]. split; [auto|]. apply in_map. auto.
        + right. right. right. split; [auto|]. exists lc. split; [auto|]. apply in_map. auto. }
    (* edges *)
    assert (GE : exists ge, (forall r, (if is3 d then take d (gather (edge_images c t p) (filter (fun e => contact p (edge_faces e 0) && contact p (edge_faces e 1)) (count 12))) (Some r) else Some r)
        = Some (fold_left (lower d) ge r)) /\
      forall x, In x ge <-> d = D3 /\ exists e le, In e (touched_edges ty k) /\ edge_nts c t e = Some le /\ In x (map im le)).
    { destruct (is3 d) eqn:D.
      - assert (D' : d = D3) by (clear - D; destruct d; [discriminate|auto]).
        assert (OE : forall e, In e (touched_edges ty k) -> 0 <= e < 12 /\ on d CEdge e p).
        { intros e I. destruct (touched_edge ty k e D' Hk I) as (He & P). split; [auto|]. eapply part_on; eauto. }
        destruct (gather_some (edge_images c t p) (filter (fun e => contact p (edge_faces e 0) && contact p (edge_faces e 1)) (count 12))) as (ge & GE).
        { intros e I. apply (TE D') in I. destruct (OE e I) as (He & Oe). destruct (edge_nts_info t e D' Ht He) as (le & _ & _ & A & _). rewrite (A p Oe). eauto. }
        exists ge. rewrite GE. split; [reflexivity|]. intros x. rewrite (gather_spec _ _ _ GE). split.
        + intros (e & ys & I & F & I'). apply (TE D') in I. destruct (OE e I) as (He & Oe).
          destruct (edge_nts_info t e D' Ht He) as (le & E & _ & A & _). rewrite (A p Oe) in F. injection F as <-. split; [auto|]. exists e, le. split; [auto|]. split; [auto|exact I'].
        + intros (_ & e & le & I & E & I'). destruct (OE e I) as (He & Oe).
          destruct (edge_nts_info t e D' Ht He) as (le' & E' & _ & A & _). rewrite E in E'. injection E' as <-.
          exists e, (map im le). split; [apply (TE D'); auto|]. split; [apply (A p Oe)|auto].
      - exists []. split; [reflexivity|]. intros x. split; [intros []|]. intros (-> & _). discriminate. }
    destruct GE as (ge & GE & SE).
    assert (GC : exists gc, (forall r, take d (gather (corner_images d c t) (filter (fun x => forallb (fun i => contact p (corner_faces d x i)) (axes d)) (count (children d)))) (Some r)
        = Some (fold_left (lower d) gc r)) /\
      forall x, In x gc <-> ty = CCorner /\ exists lc, corner_nts d c t k = Some lc /\ In x (map im lc)).
    { assert (OC : forall j, In j (match ty with CCorner => [k] | _ => [] end) -> ty = CCorner /\ j = k).
      { intros j. destruct ty; cbn; try tauto. intros [<-|[]]. auto. }
      destruct (gather_some (corner_images d c t) (filter (fun x => forallb (fun i => contact p (corner_faces d x i)) (axes d)) (count (children d)))) as (gc & GC).
      { intros j I. apply TC in I. destruct (OC j I) as (-> & ->). destruct (corner_nts_info t k Ht Hk) as (lc & _ & _ & A & _). rewrite (A p O). eauto. }
      exists gc. rewrite GC. split; [reflexivity|]. intros x. rewrite (gather_spec _ _ _ GC). split.
      - intros (j & ys & I & F & I'). apply TC in I. destruct (OC j I) as (-> & ->). destruct (corner_nts_info t k Ht Hk) as (lc & E & _ & A & _).
        rewrite (A p O) in F. injection F as <-. split; [auto|]. exists lc. split; [auto|exact I'].
      - intros (-> & lc & E & I). destruct (corner_nts_info t k Ht Hk) as (lc' & E' & _ & A & _). rewrite E in E'. injection E' as <-.
        exists k, (map im lc). split; [apply TC; left; auto|]. split; [apply (A p O)|auto]. }
    destruct GC as (gc & GC & SC).
    rewrite GE. rewrite GC.
    assert (EMP : (ty = CSelf \/ ty = CFace) -> touched_edges ty k = []) by (intros [-> | ->]; reflexivity).
    destruct ty.
    - rewrite Z.eqb_refl. exists []. split; [reflexivity|]. apply FIN. intros x. split; [intros []|].
      intros [(f & lf & [] & _)|[(_ & e & le & [] & _)|(X & _)]]; discriminate.
    - change (1 =? 0) with false. change (1 =? 1) with true. cbv iota. exists gf. split; [reflexivity|]. apply FIN. intros x. rewrite SF.
      split; [auto|]. intros [X|[(_ & e & le & [] & _)|(X & _)]]; [auto|discriminate].
    - change (2 =? 0) with false. change (2 =? 1) with false. change (2 =? 2) with true. cbv iota. rewrite andb_true_r.
      assert (D : d = D3) by (clear - Hk; destruct d; cbn in Hk; [lia|auto]).
      assert (D' : is3 d = true) by (rewrite D; reflexivity). rewrite D'.
      exists (gf ++ ge). rewrite fold_left_app. split; [reflexivity|]. apply FIN. intros x. rewrite in_app_iff, SF, SE.
      split; [tauto|]. intros [X|[X|(X & _)]]; [auto|auto|discriminate].
    - assert (N0 : (nd d =? 0) = false /\ (nd d =? 1) = false /\ is3 d && (nd d =? 2) = false) by (clear; destruct d; auto).
      destruct N0 as (-> & -> & ->). exists (gf ++ ge ++ gc). rewrite !fold_left_app. split; [reflexivity|]. apply FIN. intros x.
      rewrite !in_app_iff, SF, SE, SC. tauto.
  Qed.
End Valid.
