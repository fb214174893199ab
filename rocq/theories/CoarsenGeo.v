(** * Consecutive child ids in a gap-free list mean a family *)

From Coq Require Import ZArith List Bool Lia ZifyBool Sorting.Sorted.
From Verif Require Import Quad Spec Interval QuadLemmas DescLemmas Tree TreeLemmas SearchLocal Tiles Adapt AdaptSpec ListLemmas.
Import ListNotations.
Open Scope Z_scope.

Section G.
  Variable d : dim.

  Lemma children_pos : 4 <= children d <= 8. Proof. destruct d; cbn; lia. Qed.

  Lemma psize_mult l m : 0 <= l -> l < m <= 30 -> exists k, psize d l = children d * k * psize d m.
  Proof.
    intros H H'. rewrite (psize_split d l m) by lia.
    exists (2 ^ (nd d * (m - l - 1))). rewrite <- nd_children, <- Z.pow_add_r by (destruct d; cbn [nd]; lia).
    f_equal. f_equal. lia.
  Qed.

  (** the next leaf, with the next child id, has the same level *)
  Lemma next_id_level q r : wf d q -> wf d r -> qend d q = qpos d r -> child_id d r = child_id d q + 1 ->
    ql q = ql r /\ 0 < ql q.
  Proof.
    intros Wq Wr E Hid. pose proof children_pos as C.
    pose proof (wf_level _ _ Wq) as Lq. pose proof (wf_level _ _ Wr) as Lr.
    pose proof (child_id_range d q Wq) as Rq. pose proof (child_id_range d r Wr) as Rr.
    pose proof (wf_root_bounds d q Wq) as Bq. pose proof (wf_root_bounds d r Wr) as Br.
    pose proof (size_pos d r Wr) as Sr.
    assert (Pr : 0 < ql r).
    { destruct (Z.eq_dec (ql r) 0) as [E0|]; [|lia]. exfalso.
      unfold child_id, ancestor_id in Hid. rewrite E0 in Hid. cbn [Z.eqb] in Hid.
      fold (child_id d q) in Hid. unfold child_id, ancestor_id in Rq. fold (ancestor_id d q (ql q)) in Rq.
      fold (child_id d q) in Rq. unfold child_id in *. unfold ancestor_id in Rq. lia. }
    assert (Pq : 0 < ql q).
    { destruct (Z.eq_dec (ql q) 0) as [E0|]; [|lia]. exfalso.
      unfold qend in E. rewrite qsize_psize, E0 in E. pose proof (psize_root d 0 ltac:(lia)) as PR.
      rewrite Z.mul_0_r in PR. change (2 ^ 0) with 1 in PR. lia. }
    pose proof (child_id_dig d q Wq Pq) as Iq. pose proof (child_id_dig d r Wr Pr) as Ir.
    rewrite (wf_qend d q Wq), (wf_qpos d r Wr) in E.
    destruct (Z.lt_trichotomy (ql q) (ql r)) as [L|[L|L]]; [exfalso| |exfalso].
    - destruct (psize_mult (ql q) (ql r) ltac:(lia) ltac:(lia)) as (k & K). rewrite K in E.
      pose proof (psize_pos d (ql r) ltac:(lia)) as PP.
      assert (X : qidx d r = (qidx d q + 1) * k * children d).
      { apply (Z.mul_reg_r _ _ (psize d (ql r))); lia. }
      rewrite X, Z.mod_mul in Ir by lia. lia.
    - split; lia.
    - destruct (psize_mult (ql r) (ql q) ltac:(lia) ltac:(lia)) as (k & K). rewrite K in E.
      pose proof (psize_pos d (ql q) ltac:(lia)) as PP.
      assert (X : qidx d q = (-1) + (qidx d r * k) * children d).
      { assert (qidx d q + 1 = qidx d r * k * children d); [|lia].
        apply (Z.mul_reg_r _ _ (psize d (ql q))); lia. }
      rewrite X, Z.mod_add in Iq by lia.
      assert (Y : (-1) mod children d = children d - 1) by (destruct d; reflexivity). lia.
  Qed.

  Variable D : Type.

  Lemma run_children p : wf d p -> ql p < 29 -> forall (l : list (leaf D)) i b, 0 <= i -> i + Z.of_nat (length l) < children d ->
    tiles d (qend d (child d p i)) b (map fst l) -> ids_from d D (i + 1) l = true ->
    map fst l = map (fun k => child d p (i + 1 + Z.of_nat k)) (seq 0 (length l)) /\
    b = qend d (child d p (i + Z.of_nat (length l))).
  Proof.
    intros Wp Lp. induction l as [|c l IH]; intros i b Hi Hn T I.
    - cbn in T. cbn. split; [reflexivity|]. rewrite Z.add_0_r. auto.
    - cbn [map tiles] in T. destruct T as (Wc & Pc & T). cbn [ids_from] in I. apply andb_prop in I. destruct I as (I1 & I2).
      cbn [length] in Hn.
      pose proof (child_wf d p i Wp Lp ltac:(lia)) as (Wi & Li & _).
      pose proof (child_mod d p i Wp Lp ltac:(lia)) as Mi.
      destruct (next_id_level (child d p i) (fst c) Wi Wc ltac:(lia) ltac:(lia)) as (EL & _).
      pose proof (child_wf d p (i + 1) Wp Lp ltac:(lia)) as (Wi1 & Li1 & _).
      assert (Ec : fst c = child d p (i + 1)).
      { apply (quad_eq d); [auto|auto|lia|]. rewrite Pc. unfold qend. rewrite qsize_psize, Li.
        rewrite !(child_pos d p) by (auto; lia). lia. }
      rewrite Ec in T. destruct (IH (i + 1) b ltac:(lia) ltac:(lia) T I2) as (M & B).
      split.
      + cbn [map length seq]. rewrite M, Ec. f_equal; [f_equal; lia|].
        rewrite <- seq_shift, map_map. apply map_ext. intros k. f_equal. lia.
      + rewrite B. do 2 f_equal. cbn [length]. lia.
  Qed.

  (** a window of leaves with child ids 0, 1, ..., 2^d - 1 *)
  Lemma ids_family (fam : list (leaf D)) a b : length fam = childrenn d -> tiles d a b (map fst fam) ->
    (ids_from d D 0 fam = true <-> exists p, wf d p /\ ql p < 29 /\ map fst fam = childrenv d p).
  Proof.
    intros L T. pose proof children_pos as C.
    assert (CC : Z.of_nat (childrenn d) = children d) by (destruct d; reflexivity).
    destruct fam as [|c0 fam]; [destruct d; discriminate|].
    split.
    - intros I. cbn [ids_from] in I. apply andb_prop in I. destruct I as (I0 & I). cbn [map tiles] in T.
      destruct T as (W0 & P0 & T). cbn [length] in L.
      assert (Q0 : 0 < ql (fst c0)).
      { destruct fam as [|c1 fam]; [destruct d; discriminate|]. cbn [map tiles] in T. destruct T as (W1 & P1 & _).
        cbn [ids_from] in I. apply andb_prop in I. destruct I as (I1 & _).
        apply (next_id_level (fst c0) (fst c1)); auto; lia. }
      destruct (parent_wf d (fst c0) W0 Q0) as (Wp & Lp & _).
      pose proof (wf_level _ _ W0). 
      exists (parent d (fst c0)). split; [auto|]. split; [lia|].
      pose proof (parent_child d (fst c0) W0 Q0) as PC. replace (child_id d (fst c0)) with 0 in PC by lia.
      rewrite <- PC in T.
      destruct (run_children (parent d (fst c0)) Wp ltac:(lia) fam 0 b ltac:(lia) ltac:(lia) T I) as (M & _).
      cbn [map]. rewrite M. rewrite <- PC at 1. rewrite childrenv_child.
      replace (length fam) with (childrenn d - 1)%nat by lia. clear. destruct d; reflexivity.
    - intros (p & Wp & Lp & M). rewrite childrenv_child in M. clear T.
      assert (ID : forall i, 0 <= i < children d -> child_id d (child d p i) = i) by (intros; apply child_mod; auto).
      remember (c0 :: fam) as l eqn:El. clear El.
      assert (G : forall (l : list (leaf D)) i n, map fst l = map (fun k => child d p (i + Z.of_nat k)) (seq 0 n) -> 0 <= i -> i + Z.of_nat n <= children d ->
        ids_from d D i l = true).
      { clear - ID. induction l as [|c l IH]; intros i n M Hi Hn; [reflexivity|].
        destruct n as [|n]; [discriminate|]. cbn [map seq] in M. injection M as E M. cbn [ids_from]. rewrite E, ID by lia.
        rewrite Z.add_0_r, Z.eqb_refl. cbn [andb]. apply (IH (i + 1) n); try lia. rewrite M, <- seq_shift, map_map.
        apply map_ext. intros k. f_equal. lia. }
      apply (G l 0 (childrenn d)); [|lia|lia]. rewrite M. clear. destruct d; reflexivity.
  Qed.
End G.
