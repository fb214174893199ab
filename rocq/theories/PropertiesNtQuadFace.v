(** * C75, faces: the neighbor transform of a quadrant is p4est_quadrant_transform_face *)

From Coq Require Import ZArith List Bool Lia ZifyBool.
From Verif Require Import Quad Spec ZBits Interval QuadLemmas Transform PropertiesTransform Conn ConnLemmas Canon CanonLemmas CanonConn PropertiesConn PropertiesCanon NtQuad PropertiesNtQuad NtQuadFace.
Import ListNotations.
Open Scope Z_scope.

Lemma some_eq {A} (a b : A) : Some a = Some b -> a = b.
Proof. congruence. Qed.

(** Across a face, p4est_neighbor_transform_quadrant and p4est_quadrant_transform_face are the same function. *)
Theorem C75_faces : forall d c t ty k l nt q, conn_is_valid d c = Some true -> 0 <= c_ne c -> 0 <= c_nc c ->
  0 <= t < c_nt c -> 0 <= k < n_index d ty -> neighbor_transforms d c t ty k = Some l -> In nt l -> n_type nt = CFace -> is_valid d q = true ->
  exists ft, find_face_transform d c t (n_self nt) = Some (Some (n_tree nt, ft)) /\ nt_quadrant d nt q = transform_face d q ft.
Proof.
  intros d c t ty k l nt q V PE PC Ht Hk E I T Q. apply is_valid_wf in Q. pose proof (wf_level d q Q) as L.
  destruct (C66_listed d c t ty k l V PE PC Ht Hk E) as (_ & FA & _). destruct (FA nt I T) as (ft & _ & FF & _). exists ft. split; [exact FF|].
  destruct (nts_parts d c V PE PC t ty k Ht Hk) as (l' & E' & P). rewrite E in E'. apply some_eq in E'. subst l'. apply P in I.
  destruct I as [-> |[(f & lf & If & Ef & I)|[(D & e & le & Ie & Ee & I)|(-> & lc & Ec & I)]]]; [discriminate| | |].
  - destruct (touched_face d ty k f Hk If) as (Hf & _). destruct (face_nts_info d c V t f Ht Hf) as (l0 & E0 & _ & _ & A). rewrite Ef in E0. apply some_eq in E0. subst l0.
    apply A in I. destruct I as (nf & o & R1 & R2 & N & T1 & T2 & EQ).
    assert (FT : ft = expand_face_transform d f nf o).
    { rewrite EQ in FF. cbn [n_self n_tree with_maps] in FF.
      destruct (face_info d c V t f Ht Hf) as [(_ & _ & F3)|(nt' & nf' & o' & F1 & F2 & _ & B1 & B2 & _ & M & Q' & _ & F3 & _)]; [congruence|].
      rewrite T2 in F2. apply some_eq in F2. assert (nf = nf' /\ o = o') as (-> & ->) by (clear - F2 R1 R2 B1 B2; destruct d; cbn [faces half] in *; lia). congruence. }
    rewrite FT, EQ. assert (AG : agree d f nf o).
    { pose proof (in_ranges d f nf o Hf R1 R2) as IR. destruct d; [pose proof agree2 as AG|pose proof agree3 as AG]; rewrite Forall_forall in AG; exact (AG _ IR). }
    destruct q as [x y z lv]. cbn [ql] in L. pose proof (side_pos lv ltac:(lia)) as SP. pose proof (side_mul lv ltac:(lia)) as SM.
    apply (AG (n_tree nt) x y z (QLEN lv) lv); [rewrite QLEN_side by lia|reflexivity|unfold MAXLEVEL; lia|intros ->; destruct Q as (_ & _ & _ & H); exact H].
    assert (0 < 2 ^ lv) by (apply Z.pow_pos_nonneg; lia). nia.
  - destruct (touched_edge d ty k e D Hk Ie) as (He & _). destruct (edge_nts_info d c V PE t e D Ht He) as (l0 & E0 & G & _ & A). rewrite Ee in E0. apply some_eq in E0. subst l0.
    apply A in I. destruct I as (ets & ne & fl & _ & _ & EQ). rewrite EQ in T. discriminate.
  - destruct (corner_nts_info d c V PE PC t k Ht Hk) as (l0 & E0 & G & _ & A). rewrite Ec in E0. apply some_eq in E0. subst l0.
    apply A in I. destruct I as (cts & nk & _ & _ & EQ). rewrite EQ in T. discriminate.
Qed.
Print Assumptions C75_faces.

Example C75_faces_example : exists l ft nt, neighbor_transforms D2 twisted 0 CFace 0 = Some l /\ In nt l /\ n_type nt = CFace /\ find_face_transform D2 twisted 0 0 = Some (Some (1, ft)) /\
  nt_quadrant D2 nt (mkq 0 (2 ^ 28) 0 2) = mkq (2 ^ 30) (2 ^ 29) 0 2 /\ transform_face D2 (mkq 0 (2 ^ 28) 0 2) ft = mkq (2 ^ 30) (2 ^ 29) 0 2.
Proof.
  eexists. eexists. eexists. split; [vm_compute; reflexivity|]. split; [right; left; reflexivity|]. split; [reflexivity|]. split; [vm_compute; reflexivity|]. split; vm_compute; reflexivity.
Qed.
