(** * The neighbor relation of smallest quadrants and of leaves is symmetric *)

From Coq Require Import ZArith List Bool Lia Arith ZifyBool.
From Verif Require Import Quad Spec Morton ZBits Interval QuadLemmas Neighbor RangeBoundLemmas PropertiesNeighbor Transform PropertiesTransform
  Partition Conn ConnLemmas ConnBounds PropertiesConn Ghost GhostSpec GhostGeom GhostOut GhostSteps GhostQuad GhostForest GhostSym.
Import ListNotations.
Open Scope Z_scope.

(** two smallest quadrants that differ by at most one step in each axis, by at least one step in all *)
Definition close (d : dim) (bt : ctype) (u s : quad) : Prop :=
  (forall i, axis d i -> Z.abs (vget (cv u) i - vget (cv s) i) = 0 \/ Z.abs (vget (cv u) i - vget (cv s) i) = 2) /\
  2 <= dist1 (cv u) (cv s) <= 2 * upto bt.
Definition touch (d : dim) (c : conn) (bt : ctype) (t : Z) (u : quad) (t' : Z) (w : quad) : Prop :=
  exists s, ext d s /\ ql s = 29 /\ close d bt u s /\ seen_as d c t s t' w.

Lemma close_sym d bt u s : close d bt u s -> close d bt s u.
Proof.
  intros (A & B). split.
  - intros i Ai. specialize (A i Ai). lia.
  - unfold dist1, cv in *. lia.
Qed.

Lemma og_axis v : v = (og v 0, og v 1, og v 2). Proof. destruct v as ((a, b), e). reflexivity. Qed.
Definition n1 (o : option bool) : Z := match o with None => 0 | Some _ => 1 end.
Lemma dirs_og v : dirs v = n1 (og v 0) + n1 (og v 1) + n1 (og v 2). Proof. destruct v as ((a, b), e). reflexivity. Qed.

Lemma beside_close d bt u v s : ext d u -> ql u = 29 -> beside d u v s -> 1 <= dirs v <= upto bt -> close d bt u s.
Proof.
  intros Eu Lu B D. apply beside_comp in B. destruct B as (Es & Ls & V2 & B). rewrite Lu in B. change (side 29) with 2 in B.
  assert (H : forall o a b, at_axis o a 2 b -> Z.abs (a - b) = 2 * n1 o) by (intros [[]|] a b; cbn [at_axis n1]; lia).
  split.
  - intros i A. specialize (B i A). apply H in B. destruct (og v i); cbn [n1] in B; lia.
  - rewrite dirs_og in D. unfold dist1, cv.
    pose proof (H _ _ _ (B 0 ltac:(unfold axis; destruct d; cbn; lia))) as H0. pose proof (H _ _ _ (B 1 ltac:(unfold axis; destruct d; cbn; lia))) as H1.
    change (vget (cv u) 0) with (qx u) in H0. change (vget (cv s) 0) with (qx s) in H0. change (vget (cv u) 1) with (qy u) in H1. change (vget (cv s) 1) with (qy s) in H1.
    destruct d.
    + rewrite V2 in D by reflexivity. destruct Eu as (_ & _ & _ & ->). destruct Es as (_ & _ & _ & ->). cbn [n1] in D. lia.
    + pose proof (H _ _ _ (B 2 ltac:(unfold axis; cbn; lia))) as H2. change (vget (cv u) 2) with (qz u) in H2. change (vget (cv s) 2) with (qz s) in H2. lia.
Qed.

(** the boxes *)
Lemma inq_box d q u : 0 <= ql u <= 30 -> (d = D2 -> qz u = 0) -> ((forall x y z, inq d u x y z -> inq d q x y z) <-> inbox d q u).
Proof.
  intros L Z0. pose proof (side_le (ql u) L) as SL. rewrite inbox_axes. split.
  - intros H. assert (A : inq d u (qx u) (qy u) (qz u)) by (unfold inq; destruct d; [rewrite Z0 by reflexivity|]; lia).
    assert (B : inq d u (qx u + side (ql u) - 1) (qy u + side (ql u) - 1) (match d with D2 => 0 | D3 => qz u + side (ql u) - 1 end)) by (unfold inq; destruct d; lia).
    apply H in A. apply H in B. unfold inq in A, B. destruct d; lia.
  - intros H x y z. unfold inq. destruct d; lia.
Qed.

(** a neighbor of a quadrant is the neighbor of one of its smallest quadrants *)
Definition near_axis (o : option bool) (a h s : Z) : Z := match o with None => s | Some false => a | Some true => a + h - 2 end.
Definition near_cell (d : dim) (q : quad) (v : obj) (s : quad) : quad :=
  let h := side (ql q) in
  mkq (near_axis (og v 0) (qx q) h (qx s)) (near_axis (og v 1) (qy q) h (qy s)) (match d with D2 => 0 | D3 => near_axis (og v 2) (qz q) h (qz s) end) 29.
Lemma near_cv d q v s i : axis d i -> vget (cv (near_cell d q v s)) i = near_axis (og v i) (vget (cv q) i) (side (ql q)) (vget (cv s) i).
Proof.
  intros A. unfold axis in A. assert (C : i = 0 \/ i = 1 \/ (d = D3 /\ i = 2)) by (destruct d; cbn [nd] in A; [lia|]; destruct (Z.eq_dec i 2); [auto|lia]).
  destruct C as [-> |[-> |(-> & ->)]]; reflexivity.
Qed.
Lemma near_spec d q v s : wf d q -> beside d q v s ->
  wf d (near_cell d q v s) /\ inbox d q (near_cell d q v s) /\ beside d (near_cell d q v s) v s.
Proof.
  intros W B. apply beside_comp in B. destruct B as (Es & Ls & V2 & B). pose proof W as W0. apply wf_comp in W. destruct W as (Eq & Rq).
  pose proof Eq as Eq0. apply ext_comp in Eq. destruct Eq as (L & Dv & _). pose proof Es as Es0. apply ext_comp in Es. destruct Es as (_ & Ds & _).
  destruct (side_even (ql q) L) as (h & Eh & Hh).
  assert (K : forall i, axis d i -> let n := vget (cv (near_cell d q v s)) i in
     (exists X, n = X * 2) /\ vget (cv q) i <= n /\ n + 2 <= vget (cv q) i + side (ql q) /\ 0 <= n < 2 ^ 30 /\ at_axis (og v i) n 2 (vget (cv s) i)).
  { intros i A n. unfold n. rewrite near_cv by exact A. specialize (B i A). specialize (Rq i A). destruct (Dv i A) as (X & EX). destruct (Ds i A) as (Y & EY). rewrite Ls in EY. change (side 29) with 2 in EY.
    pose proof (mul_up (ql q) (vget (cv q) i) (2 ^ 30) ltac:(lia) (Dv i A) ltac:(auto) ltac:(lia)) as M.
    assert (EX2 : vget (cv q) i = X * h * 2) by (rewrite EX, Eh; ring).
    destruct (og v i) as [[]|]; cbn [near_axis at_axis] in *.
    - split; [exists (X * h + h - 1); lia|]. lia.
    - split; [exists (X * h); lia|]. lia.
    - split; [exists Y; lia|]. lia. }
  assert (EN : ext d (near_cell d q v s)).
  { apply ext_comp. split; [cbn; lia|]. split; [|intros ->; reflexivity]. intros i A. destruct (K i A) as (X & _). exact X. }
  split; [apply wf_comp; split; [exact EN|]; intros i A; apply (K i A)|]. split.
  - intros i A. change (ql (near_cell d q v s)) with 29. change (side 29) with 2. destruct (K i A) as (_ & K1 & K2 & _). auto.
  - apply beside_comp. split; [exact Es0|]. split; [exact Ls|]. split; [exact V2|]. intros i A. change (ql (near_cell d q v s)) with 29. change (side 29) with 2. apply (K i A).
Qed.

(** and back: a smallest quadrant close to one of q and not in q *)
Definition dir_axis (a h s : Z) : option bool := if s <? a then Some false else if a + h <=? s then Some true else None.
Definition dir_to (d : dim) (q s : quad) : obj :=
  let h := side (ql q) in (dir_axis (qx q) h (qx s), dir_axis (qy q) h (qy s), match d with D2 => None | D3 => dir_axis (qz q) h (qz s) end).
Lemma og_dir d q s i : axis d i -> og (dir_to d q s) i = dir_axis (vget (cv q) i) (side (ql q)) (vget (cv s) i).
Proof.
  intros A. unfold axis in A. assert (C : i = 0 \/ i = 1 \/ (d = D3 /\ i = 2)) by (destruct d; cbn [nd] in A; [lia|]; destruct (Z.eq_dec i 2); [auto|lia]).
  destruct C as [-> |[-> |(-> & ->)]]; reflexivity.
Qed.
Lemma dir_spec d bt q u s : wf d q -> ext d u -> ql u = 29 -> inbox d q u -> ext d s -> ql s = 29 -> close d bt u s -> ~ inbox d q s ->
  1 <= dirs (dir_to d q s) <= upto bt /\ beside d q (dir_to d q s) s.
Proof.
  intros W Eu Lu IN Es Ls (CL & DI) NI. apply wf_ext in W. destruct W as (Eq & _). pose proof Eq as Eq0. apply ext_comp in Eq. destruct Eq as (L & Dv & _).
  pose proof Es as Es0. apply ext_comp in Es. destruct Es as (_ & Ds & _). pose proof Eu as Eu0. apply ext_comp in Eu. destruct Eu as (_ & Du & _).
  destruct (side_even (ql q) L) as (h & Eh & Hh). rewrite Lu in *. rewrite Ls in *. change (side 29) with 2 in *.
  assert (K : forall i, axis d i -> at_axis (og (dir_to d q s) i) (vget (cv q) i) (side (ql q)) (vget (cv s) i) /\
     2 * n1 (og (dir_to d q s) i) <= Z.abs (vget (cv u) i - vget (cv s) i)).
  { intros i A. rewrite og_dir by exact A. specialize (IN i A). specialize (CL i A). rewrite Lu in IN. change (side 29) with 2 in IN.
    destruct (Dv i A) as (X & EX). destruct (Ds i A) as (Y & EY). destruct (Du i A) as (U & EU).
    assert (EX2 : vget (cv q) i = X * h * 2) by (rewrite EX, Eh; ring). set (P := X * h) in *. clearbody P. clear EX.
    unfold dir_axis. destruct (vget (cv s) i <? vget (cv q) i) eqn:E1; [cbn [at_axis n1]; lia|].
    destruct (vget (cv q) i + side (ql q) <=? vget (cv s) i) eqn:E2; cbn [at_axis n1]; lia. }
  split; [split|].
  - destruct (Z.le_gt_cases 1 (dirs (dir_to d q s))) as [|G]; [assumption|exfalso]. apply NI. intros i A. destruct (K i A) as (K1 & _).
    assert (og (dir_to d q s) i = None) as E.
    { rewrite dirs_og in G. assert (NN : forall o, 0 <= n1 o) by (intros []; cbn; lia). pose proof (NN (og (dir_to d q s) 0)). pose proof (NN (og (dir_to d q s) 1)). pose proof (NN (og (dir_to d q s) 2)).
      assert (C : i = 0 \/ i = 1 \/ i = 2) by (unfold axis in A; destruct d; cbn [nd] in A; lia).
      assert (n1 (og (dir_to d q s) i) = 0) as N by (destruct C as [-> |[-> | ->]]; lia). destruct (og (dir_to d q s) i); [discriminate|reflexivity]. }
    rewrite E in K1. rewrite Ls. exact K1.
  - rewrite dirs_og. destruct (K 0 ltac:(unfold axis; destruct d; cbn; lia)) as (_ & K0). destruct (K 1 ltac:(unfold axis; destruct d; cbn; lia)) as (_ & K1).
    unfold dist1, cv in DI. change (vget (cv u) 0) with (qx u) in K0. change (vget (cv s) 0) with (qx s) in K0. change (vget (cv u) 1) with (qy u) in K1. change (vget (cv s) 1) with (qy s) in K1.
    destruct d.
    + change (og (dir_to D2 q s) 2) with (@None bool). cbn [n1]. lia.
    + destruct (K 2 ltac:(unfold axis; cbn; lia)) as (_ & K2). change (vget (cv u) 2) with (qz u) in K2. change (vget (cv s) 2) with (qz s) in K2. lia.
  - apply beside_comp. split; [exact Es0|]. split; [exact Ls|]. split; [intros ->; reflexivity|]. intros i A. apply (K i A).
Qed.
