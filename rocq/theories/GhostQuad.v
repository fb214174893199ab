(** * One leaf in the construction of the ghost layer: the ranks it is sent to *)

From Coq Require Import ZArith List Bool Lia ZifyBool.
From Verif Require Import Quad Spec Morton ZBits Interval QuadLemmas CompareLemmas DescLemmas SearchLocal Neighbor RangeBound RangeBoundLemmas PropertiesNeighbor Transform PropertiesTransform
  Conn ConnLemmas PropertiesConn Partition PartLemmas Comm OwnerLemmas Ghost GhostSpec GhostGeom GhostOut GhostState GhostTest GhostSteps.
Import ListNotations.
Open Scope Z_scope.

(** ** A valid connectivity *)
Definition faces_ok (d : dim) (c : conn) (t : Z) : Prop := forall f, 0 <= f < faces d -> find_face_transform d c t f = Some None \/
    exists nt nf o, find_face_transform d c t f = Some (Some (nt, expand_face_transform d f nf o)) /\ 0 <= nt < c_nt c /\ 0 <= nf < faces d /\ 0 <= o < half d /\
      zget (c_ttf c) (t * faces d + f) = Some (nf + faces d * o).
Definition edges_ok (d : dim) (c : conn) (t : Z) : Prop :=
  d = D3 -> forall e, 0 <= e < 12 -> exists ets, find_edge_transform c t e = Some ets /\ forall nt ne fl, In (nt, ne, fl) ets -> 0 <= nt < c_nt c /\ 0 <= ne < 12.
Definition corners_ok (d : dim) (c : conn) (t : Z) : Prop :=
  forall k, 0 <= k < children d -> exists cts, find_corner_transform d c t k = Some cts /\ forall nt nc, In (nt, nc) cts -> 0 <= nt < c_nt c /\ 0 <= nc < children d.

Lemma conn_faces d c t : conn_is_valid d c = Some true -> 0 <= t < c_nt c -> faces_ok d c t.
Proof.
  intros V Ht f Hf. destruct (conn_valid_inv _ _ V) as (ne & nc & _ & _ & _ & _ & TV).
  destruct (valid_tree_inv _ _ _ _ _ (TV t Ht)) as (FV & _).
  destruct (valid_face_true _ _ _ _ (FV f Hf)) as (nt & code & E1 & E2 & Rn & Rc & _).
  assert (Fp : 0 < faces d) by (destruct d; cbn; lia).
  unfold find_face_transform. rewrite Z.mul_comm with (n := faces d). rewrite E1, E2. rewrite Z.rem_mod_nonneg, Z.quot_div_nonneg by lia.
  destruct ((nt =? t) && (code mod faces d =? f)); [left; reflexivity|right].
  exists nt, (code mod faces d), (code / faces d). split; [reflexivity|]. split; [exact Rn|]. split; [apply Z.mod_pos_bound; lia|].
  split; [split; [apply Z.div_pos; lia|apply Z.div_lt_upper_bound; lia]|]. f_equal. pose proof (Z.div_mod code (faces d)). lia.
Qed.

Lemma conn_edges d c t : conn_is_valid d c = Some true -> 0 <= t < c_nt c -> 0 <= c_ne c -> edges_ok d c t.
Proof.
  intros V Ht PE E3 e He. rewrite E3 in V. destruct (Z.eq_dec (c_ne c) 0) as [Z0|NZ].
  - exists []. unfold find_edge_transform. rewrite Z0. split; [reflexivity|]. intros nt n fl [].
  - destruct (conn_valid_inv _ _ V) as (ne & nc & _ & _ & _ & _ & TV).
    destruct (valid_tree_inv _ _ _ _ _ (TV t Ht)) as (_ & _ & EV & _). specialize (EV eq_refl ltac:(lia) e He).
    destruct (valid_edge_true _ _ _ _ EV) as (ae & E & _ & _). replace (t * 12 + e) with (12 * t + e) in E by lia.
    destruct (Z.eq_dec ae (-1)) as [->|N].
    + exists []. unfold find_edge_transform. replace (c_ne c =? 0) with false by lia. rewrite E. split; [reflexivity|]. intros nt n fl [].
    + destruct (C49_edge_neighbors c t e ae V Ht He ltac:(lia) E N) as (ets & F & I & _). exists ets. split; [exact F|].
      intros nt n fl HI. destruct (I nt n fl HI) as (A & B & _). auto.
Qed.

Lemma conn_corners d c t : conn_is_valid d c = Some true -> 0 <= t < c_nt c -> 0 <= c_ne c -> 0 <= c_nc c -> corners_ok d c t.
Proof.
  intros V Ht PE PC k Hk. destruct (Z.eq_dec (c_nc c) 0) as [Z0|NZ].
  - exists []. unfold find_corner_transform. rewrite Z0. split; [reflexivity|]. intros nt n [].
  - destruct (conn_valid_inv _ _ V) as (ne & nc & _ & _ & _ & _ & TV).
    destruct (valid_tree_inv _ _ _ _ _ (TV t Ht)) as (_ & _ & _ & _ & KV). specialize (KV ltac:(lia) k Hk).
    destruct (valid_corner_true _ _ _ _ _ KV) as (ac & E & _ & _). replace (t * children d + k) with (children d * t + k) in E by lia.
    destruct (Z.eq_dec ac (-1)) as [->|N].
    + exists []. unfold find_corner_transform. replace (c_nc c =? 0) with false by lia. rewrite E. split; [reflexivity|]. intros nt n [].
    + destruct (C48_corner_neighbors d c t k ac V Ht Hk ltac:(lia) PE E N) as (l & F & _ & I). exists l. split; [exact F|].
      intros nt n HI. apply I in HI. tauto.
Qed.

(** tree_contact[f] *)
Lemma contacts_spec d c t : conn_is_valid d c = Some true -> 0 <= t < c_nt c -> exists l, contacts d c t (face_list d) = Some l /\
  forall f n, 0 <= f < faces d -> find_face_transform d c t f = Some (Some n) -> nth (Z.to_nat f) l false = true.
Proof.
  intros V Ht. destruct (conn_valid_inv _ _ V) as (ne & nc & _ & _ & _ & _ & TV).
  destruct (valid_tree_inv _ _ _ _ _ (TV t Ht)) as (FV & _).
  assert (Fp : 0 < faces d) by (destruct d; cbn; lia).
  assert (G : forall f, 0 <= f < faces d -> exists nt code, zget (c_ttt c) (faces d * t + f) = Some nt /\ zget (c_ttf c) (faces d * t + f) = Some code /\
    forall n, find_face_transform d c t f = Some (Some n) -> negb (nt =? t) || negb (code =? f) = true).
  { intros f Hf. destruct (valid_face_true _ _ _ _ (FV f Hf)) as (nt & code & E1 & E2 & Rn & Rc & _).
    rewrite Z.mul_comm in E1, E2. rewrite Z.mul_comm in E1. rewrite Z.mul_comm in E2. replace (t * faces d + f) with (faces d * t + f) in E1, E2 by lia.
    exists nt, code. split; [exact E1|]. split; [exact E2|]. intros n. unfold find_face_transform. rewrite E1, E2.
    rewrite Z.rem_mod_nonneg by lia. destruct (nt =? t) eqn:A; [|reflexivity]. destruct (code =? f) eqn:B; [|reflexivity].
    replace code with f by lia. rewrite Z.mod_small by lia. rewrite Z.eqb_refl. discriminate. }
  assert (K : forall fs, (forall f, In f fs -> 0 <= f < faces d) -> exists l, contacts d c t fs = Some l /\
    forall i f n, nth_error fs i = Some f -> find_face_transform d c t f = Some (Some n) -> nth i l false = true).
  { induction fs as [|f fs IH]; intros HI; [exists []; split; [reflexivity|intros [|i] ? ? [=]]|].
    destruct (G f (HI f (or_introl eq_refl))) as (nt & code & E1 & E2 & GF). destruct IH as (l & EL & HL); [intros; apply HI; right; assumption|].
    exists ((negb (nt =? t) || negb (code =? f)) :: l). cbn [contacts]. rewrite E1, E2, EL. split; [reflexivity|].
    intros [|i] f' n EN FF; cbn [nth nth_error] in *; [injection EN as <-; apply (GF n FF)|apply (HL i f' n EN FF)]. }
  destruct (K (face_list d)) as (l & EL & HL).
  { intros f. unfold face_list. destruct d; cbn [In faces]; intuition lia. }
  exists l. split; [exact EL|]. intros f n Hf FF. apply (HL (Z.to_nat f) f n); [|exact FF].
  unfold face_list. destruct d; cbn [faces] in Hf.
  - assert (f = 0 \/ f = 1 \/ f = 2 \/ f = 3) as C by lia. destruct C as [->|[->|[->| ->]]]; reflexivity.
  - assert (f = 0 \/ f = 1 \/ f = 2 \/ f = 3 \/ f = 4 \/ f = 5) as C by lia. destruct C as [->|[->|[->|[->|[->| ->]]]]]; reflexivity.
Qed.

(** trees that meet at an edge or a corner but not across a face: none of these has only such neighbors *)
Definition joined (d : dim) (c : conn) : Prop := forall t, 0 <= t < c_nt c ->
  (d = D3 -> forall e x l, 0 <= e < 12 -> find_edge_transform c t e = Some (x :: l) ->
     exists i n, (i = 0 \/ i = 1) /\ find_face_transform d c t (edge_faces e i) = Some (Some n)) /\
  (forall k x l, 0 <= k < children d -> find_corner_transform d c t k = Some (x :: l) ->
     exists i n, 0 <= i < nd d /\ find_face_transform d c t (corner_faces d k i) = Some (Some n)).

(** ** The curve follows the coordinates *)
Lemma mort_mono d n : forall x y z x' y' z', 0 <= x <= x' -> x' < 2 ^ Z.of_nat n -> 0 <= y <= y' -> y' < 2 ^ Z.of_nat n ->
  0 <= z <= z' -> z' < 2 ^ Z.of_nat n -> mort d n x y z <= mort d n x' y' z'.
Proof.
  induction n as [|n IH]; intros x y z x' y' z' X X' Y Y' Z0 Z'; [reflexivity|]. cbn [mort].
  assert (H2 : forall a b, 0 <= a <= b -> 0 <= a / 2 <= b / 2) by (intros; split; [apply Z.div_pos; lia|apply Z.div_le_mono; lia]).
  assert (B2 : forall a, a < 2 ^ Z.of_nat (S n) -> a / 2 < 2 ^ Z.of_nat n).
  { intros a Ha. apply Z.div_lt_upper_bound; [lia|]. rewrite Nat2Z.inj_succ, Z.pow_succ_r in Ha by lia. exact Ha. }
  pose proof (IH (x / 2) (y / 2) (z / 2) (x' / 2) (y' / 2) (z' / 2) (H2 _ _ X) (B2 _ X') (H2 _ _ Y) (B2 _ Y') (H2 _ _ Z0) (B2 _ Z')) as L.
  apply Z.le_lteq in L. destruct L as [L|E].
  - pose proof (dig_range d x y z). pose proof (dig_range d x' y' z').
    set (M := 2 ^ nd d) in *. set (a := mort d n (x / 2) (y / 2) (z / 2)) in *. set (b := mort d n (x' / 2) (y' / 2) (z' / 2)) in *.
    assert (M * (a + 1) <= M * b) by (apply Z.mul_le_mono_nonneg_l; lia). lia.
  - rewrite E. apply Z.add_le_mono_l. apply mort_inj in E. destruct E as (E1 & E2 & E3).
    assert (MD : forall a b, 0 <= a <= b -> b < 2 ^ Z.of_nat (S n) -> (a / 2) mod 2 ^ Z.of_nat n = (b / 2) mod 2 ^ Z.of_nat n -> a mod 2 <= b mod 2).
    { intros a b Hab Hb Hd. pose proof (H2 _ _ Hab). pose proof (B2 _ Hb). rewrite !Z.mod_small in Hd by lia. pose proof (Z.div_mod a 2). pose proof (Z.div_mod b 2). lia. }
    unfold dig. pose proof (MD x x' X X' E1). pose proof (MD y y' Y Y' E2).
    destruct d; [lia|]. pose proof (MD z z' Z0 Z' (E3 eq_refl)). lia.
Qed.

Lemma qpos_mono d q r : wf d q -> wf d r -> (forall i, axis d i -> vget (cv q) i <= vget (cv r) i) -> qpos d q <= qpos d r.
Proof.
  intros Wq Wr H. rewrite (all_axes d (fun i => vget (cv q) i <= vget (cv r) i)) in H.
  change (vget (cv q) 0) with (qx q) in H. change (vget (cv q) 1) with (qy q) in H. change (vget (cv q) 2) with (qz q) in H.
  change (vget (cv r) 0) with (qx r) in H. change (vget (cv r) 1) with (qy r) in H. change (vget (cv r) 2) with (qz r) in H.
  apply wf_qin in Wq. apply wf_qin in Wr. unfold qin, inroot in *. unfold qpos, ppos. change (2 ^ 30) with (2 ^ Z.of_nat 30) in *.
  destruct d; destruct H as (A & B & C); destruct Wq as (? & ? & ?); destruct Wr as (? & ? & ?); apply mort_mono; lia.
Qed.

(** ** Where a smallest quadrant next to q lies *)
Lemma beside_comp d q v s : beside d q v s <-> ext d s /\ ql s = 29 /\ (d = D2 -> og v 2 = None) /\
  forall i, axis d i -> at_axis (og v i) (vget (cv q) i) (side (ql q)) (vget (cv s) i).
Proof.
  rewrite (all_axes d (fun i => at_axis (og v i) (vget (cv q) i) (side (ql q)) (vget (cv s) i))). unfold beside. destruct v as ((a, b), e).
  change (og (a, b, e) 0) with a. change (og (a, b, e) 1) with b. change (og (a, b, e) 2) with e.
  change (vget (cv q) 0) with (qx q). change (vget (cv q) 1) with (qy q). change (vget (cv q) 2) with (qz q).
  change (vget (cv s) 0) with (qx s). change (vget (cv s) 1) with (qy s). change (vget (cv s) 2) with (qz s).
  destruct d; split.
  - intros (E & L & A & B & C). split; [exact E|]. split; [exact L|]. split; [auto|]. auto.
  - intros (E & L & C & A & B & _). split; [exact E|]. split; [exact L|]. split; [exact A|]. split; [exact B|]. apply C. reflexivity.
  - intros (E & L & A & B & C). split; [exact E|]. split; [exact L|]. split; [discriminate|]. auto.
  - intros (E & L & _ & A & B & C). auto.
Qed.

Lemma at_axis_range v a h s : 2 <= h -> at_axis v a h s -> a - h <= s /\ s + 2 <= a + 2 * h.
Proof. intros H. destruct v as [[]|]; cbn [at_axis]; lia. Qed.

Lemma side_two l : 0 <= l <= 29 -> 2 <= side l.
Proof. intros L. destruct (side_even l L) as (h & -> & H). lia. Qed.

(** a neighbor beyond the boundary of the tree: q lies at that boundary *)
Lemma beside_out d q v s i b : wf d q -> beside d q v s -> axis d i -> og (out d s) i = Some b ->
  og v i = Some b /\ vget (cv q) i = if b then 2 ^ 30 - side (ql q) else 0.
Proof.
  intros W B A O. apply beside_comp in B. destruct B as (_ & _ & _ & B). specialize (B i A). rewrite og_out in O by exact A.
  apply wf_comp in W. destruct W as (E & R). specialize (R i A). apply ext_comp in E. destruct E as (L & Dv & _).
  pose proof (mul_up (ql q) (vget (cv q) i) (2 ^ 30) ltac:(lia) (Dv i A) ltac:(auto) ltac:(lia)) as M.
  pose proof (side_two (ql q) L) as S2. destruct (side_even (ql q) L) as (h & Eh & _). destruct (Dv i A) as (X & EX).
  assert (EV : exists Y, vget (cv q) i = 2 * Y) by (exists (X * h); rewrite EX, Eh; ring). destruct EV as (Y & EY).
  unfold out_axis in O. destruct (og v i) as [[]|] eqn:V; cbn [at_axis] in B; destruct b;
    destruct (vget (cv s) i <? 0) eqn:N1; try discriminate O; try (destruct (2 ^ 30 <=? vget (cv s) i) eqn:N2; try discriminate O); (split; [auto; exfalso; lia|lia]).
Qed.

Lemma dirs_sub v w : (forall i, 0 <= i <= 2 -> og w i = None \/ og w i = og v i) -> dirs w <= dirs v.
Proof.
  intros H. pose proof (H 0 ltac:(lia)) as H0. pose proof (H 1 ltac:(lia)) as H1. pose proof (H 2 ltac:(lia)) as H2.
  destruct v as ((a, b), e), w as ((a', b'), e'). unfold og in *. change (0 =? 0) with true in *. change (1 =? 0) with false in *. change (1 =? 1) with true in *. change (2 =? 0) with false in *. change (2 =? 1) with false in *. cbv iota in *. unfold dirs.
  destruct H0 as [->| ->], H1 as [->| ->], H2 as [->| ->]; destruct a, b, e; lia.
Qed.

Lemma beside_dirs d q v s : wf d q -> beside d q v s -> dirs (out d s) <= dirs v.
Proof.
  intros W B. apply dirs_sub. intros i Hi. destruct (og (out d s) i) as [b|] eqn:E; [right|left; reflexivity].
  assert (A : axis d i). { unfold axis. destruct d; cbn [nd]; [|lia]. destruct (Z.eq_dec i 2) as [->|]; [discriminate E|lia]. }
  destruct (beside_out d q v s i b W B A E) as (V & _). congruence.
Qed.

Lemma corner_face_obj d k i : 0 <= k < children d -> 0 <= i < nd d -> let f := corner_faces d k i in
  0 <= f < faces d /\ f / 2 = i /\ og (corner_obj d k) i = Some (Z.odd f).
Proof.
  intros Hk Hi. destruct d; cbn [nd children faces] in *.
  - assert (k = 0 \/ k = 1 \/ k = 2 \/ k = 3) as C by lia. assert (i = 0 \/ i = 1) as I by lia.
    destruct C as [->|[->|[->| ->]]], I as [->| ->]; vm_compute; repeat split; congruence.
  - assert (k = 0 \/ k = 1 \/ k = 2 \/ k = 3 \/ k = 4 \/ k = 5 \/ k = 6 \/ k = 7) as C by lia. assert (i = 0 \/ i = 1 \/ i = 2) as I by lia.
    destruct C as [->|[->|[->|[->|[->|[->|[->| ->]]]]]]], I as [->|[->| ->]]; vm_compute; repeat split; congruence.
Qed.
Lemma edge_face_obj e i : 0 <= e < 12 -> i = 0 \/ i = 1 -> let f := edge_faces e i in 0 <= f < 6 /\ og (edge_obj e) (f / 2) = Some (Z.odd f).
Proof.
  intros He Hi. assert (e = 0 \/ e = 1 \/ e = 2 \/ e = 3 \/ e = 4 \/ e = 5 \/ e = 6 \/ e = 7 \/ e = 8 \/ e = 9 \/ e = 10 \/ e = 11) as C by lia.
  destruct C as [->|[->|[->|[->|[->|[->|[->|[->|[->|[->|[->| ->]]]]]]]]]]], Hi as [->| ->]; vm_compute; repeat split; congruence.
Qed.

Lemma bt_adds P t num q m0 bt d fe fc Qe Qc : (d = D3 -> adds P t num q m0 fe Qe) -> adds P t num q m0 fc Qc ->
  adds P t num q m0 (fun m => match bt with CFace => Some m | _ => match (if is3 d then fe m else Some m) with None => None
    | Some m => match bt, d with CEdge, D3 => Some m | _, _ => fc m end end end)
    (fun p => (bt <> CFace /\ d = D3 /\ Qe p) \/ (bt <> CFace /\ ~ (bt = CEdge /\ d = D3) /\ Qc p)).
Proof.
  intros AE AC. destruct bt.
  - apply adds_none. intros p [(N & _)|(N & _)]; destruct (N eq_refl).
  - destruct d; cbn [is3].
    + eapply adds_ext; [|exact AC]. intros p. cbn beta. split; [intros K; right; split; [discriminate|split; [intros (_ & X); discriminate X|exact K]]|].
      intros [(_ & X & _)|(_ & _ & K)]; [discriminate X|exact K].
    + eapply adds_ext; [|exact (adds_then P t num q m0 _ (fun m => Some m) _ (fun _ => False) (AE eq_refl) (adds_none P t num q m0 (fun _ => False) (fun p x => x)))].
      intros p. cbn beta. split; [intros [K|[]]; left; split; [discriminate|auto]|]. intros [(_ & _ & K)|(_ & X & _)]; [left; exact K|destruct X; auto].
  - destruct d; cbn [is3].
    + eapply adds_ext; [|exact AC]. intros p. cbn beta. split; [intros K; right; split; [discriminate|split; [intros (X & _); discriminate X|exact K]]|].
      intros [(_ & X & _)|(_ & _ & K)]; [discriminate X|exact K].
    + eapply adds_ext; [|exact (adds_then P t num q m0 _ _ _ _ (AE eq_refl) AC)]. intros p. cbn beta. split.
      * intros [K|K]; [left; split; [discriminate|auto]|right; split; [discriminate|]; split; [intros (X & _); discriminate X|exact K]].
      * intros [(_ & _ & K)|(_ & _ & K)]; auto.
Qed.

Section Quad1.
  Variables (d : dim) (c : conn) (gfp : list marker) (P rank t num first last : Z) (q : quad) (bt : ctype).
  Let T := c_nt c.
  Hypothesis HP : 1 <= P.
  Hypothesis Hlen : zlen gfp = P + 1.
  Hypothesis Hwf : forall p m, zget gfp p = Some m -> wf d (g_quad m) /\ ql (g_quad m) = 29.
  Hypothesis Hin : Forall (fun m => qin d (g_quad m)) gfp.
  Hypothesis Hmono : forall p, 0 <= p < P -> mp d gfp p <= mp d gfp (p + 1).
  Hypothesis Hbeg : mp d gfp 0 = 0.
  Hypothesis Hend : mp d gfp P = T * TREE d.
  Hypothesis Hone : forall p, 0 <= p < P -> mp d gfp (p + 1) <> mp d gfp p + psize d 29.
  Hypothesis Hrank : 0 <= rank < P.
  Hypothesis Wq : wf d q.
  Hypothesis Ht : 0 <= t < T.
  Hypothesis V : conn_is_valid d c = Some true.
  Hypothesis PE : 0 <= c_ne c.
  Hypothesis PC : 0 <= c_nc c.
  Hypothesis HJ : bt = CFace \/ joined d c.
  Hypothesis Hfirst : mp d gfp rank < (first + 1) * TREE d.
  Hypothesis Hlast : last * TREE d <= mp d gfp (rank + 1).
  Hypothesis Hown : owns d gfp rank t q.

  Lemma mult_le a b M : 0 < M -> a * M < (b + 1) * M -> a <= b.
  Proof. intros HM H. apply Z.mul_lt_mono_pos_r in H; lia. Qed.

  Lemma info_spec : exists full0 full1 con, tree_info d c gfp rank first last t = Some (full0, full1, con) /\
    (full0 && full1 = true -> mp d gfp rank <= t * TREE d /\ (t + 1) * TREE d <= mp d gfp (rank + 1)) /\
    forall f n, 0 <= f < faces d -> find_face_transform d c t f = Some (Some n) -> nth (Z.to_nat f) con false = true.
  Proof.
    destruct (contacts_spec d c t V Ht) as (l & EL & HL). unfold tree_info.
    destruct (mp_get d gfp P HP Hlen Hin rank ltac:(lia)) as (m & E & Q & M). destruct (mp_get d gfp P HP Hlen Hin (rank + 1) ltac:(lia)) as (m' & E' & Q' & M').
    rewrite E, E', EL. eexists _, _, l. split; [reflexivity|]. split; [|exact HL].
    pose proof (tree_pos d) as TP. pose proof (qpos_range d q) as R. unfold owns, tpos in Hown.
    assert (OR : forall x, zget gfp rank = Some x \/ zget gfp (rank + 1) = Some x -> at_origin d (g_quad x) = true -> qpos d (g_quad x) = 0).
    { intros x Hx A. assert (Wx : wf d (g_quad x)) by (destruct Hx as [Hx|Hx]; apply (Hwf _ _ Hx)). unfold at_origin in A. unfold qpos.
      destruct Wx as (_ & _ & _ & Z0). replace (qx (g_quad x)) with 0 by lia. replace (qy (g_quad x)) with 0 by lia.
      replace (qz (g_quad x)) with 0; [destruct d; reflexivity|]. destruct d; [lia|]. cbn [is3] in A. lia. }
    intros F. apply andb_true_iff in F. destruct F as (F0 & F1). split.
    - apply orb_true_iff in F0. destruct F0 as [F0|F0].
      + assert ((first + 1) * TREE d <= t * TREE d) by (apply Z.mul_le_mono_nonneg_r; lia). lia.
      + apply OR in F0; [|left; exact E]. unfold mpos, tpos in M. rewrite F0 in M. rewrite M in *.
        assert (g_tree m <= t) by (apply (mult_le _ _ (TREE d) TP); lia). rewrite Z.add_0_r. apply Z.mul_le_mono_nonneg_r; lia.
    - apply orb_true_iff in F1. destruct F1 as [F1|F1].
      + assert ((t + 1) * TREE d <= last * TREE d) by (apply Z.mul_le_mono_nonneg_r; lia). lia.
      + apply OR in F1; [|right; exact E']. unfold mpos, tpos in M'. rewrite F1 in M'. rewrite M' in *.
        assert (t < g_tree m') by (apply Z.mul_lt_mono_pos_r with (TREE d); lia). rewrite Z.add_0_r. apply Z.mul_le_mono_nonneg_r; lia.
  Qed.

  Lemma skip_spec full0 full1 con :
    (full0 && full1 = true -> mp d gfp rank <= t * TREE d /\ (t + 1) * TREE d <= mp d gfp (rank + 1)) ->
    (forall f n, 0 <= f < faces d -> find_face_transform d c t f = Some (Some n) -> nth (Z.to_nat f) con false = true) ->
    exists b, neighborhood_owned d gfp P rank t (full0, full1, con) q = Some b /\
      (b = true -> forall p, 0 <= p < P -> neighbor_rank d c gfp bt t q p -> p = rank).
  Proof.
    intros HF HC. unfold neighborhood_owned. pose proof (wf_level d q Wq) as L. rewrite !QLEN_side by lia. set (h := side (ql q)).
    pose proof (side_two (ql q) L) as S2. fold h in S2. destruct (full0 && full1).
    - specialize (HF eq_refl). eexists. split; [reflexivity|]. intros B p Hp (v & s & nt & s' & DV & BS & SN & OW).
      assert (AT : forall f n, 0 <= f < faces d -> find_face_transform d c t f = Some (Some n) -> og (out d s) (f / 2) = Some (Z.odd f) -> False).
      { intros f n Hf FF O. assert (A : axis d (f / 2)). { unfold axis. split; [apply Z.div_pos; lia|]. destruct d; cbn [nd faces] in *; apply Z.div_lt_upper_bound; lia. }
        destruct (beside_out d q v s (f / 2) (Z.odd f) Wq BS A O) as (_ & EQ). specialize (HC f n Hf FF). fold h in EQ.
        assert (f = 0 \/ f = 1 \/ f = 2 \/ f = 3 \/ (is3 d = true /\ (f = 4 \/ f = 5))) as C by (destruct d; cbn [faces is3] in *; lia).
        change ROOT_LEN with (2 ^ 30) in B.
        destruct C as [->|[->|[->|[->|(E3 & [->| ->])]]]];
          [change (vget (cv q) (0 / 2)) with (qx q) in EQ|change (vget (cv q) (1 / 2)) with (qx q) in EQ|change (vget (cv q) (2 / 2)) with (qy q) in EQ|
           change (vget (cv q) (3 / 2)) with (qy q) in EQ|change (vget (cv q) (4 / 2)) with (qz q) in EQ|change (vget (cv q) (5 / 2)) with (qz q) in EQ];
          cbn [Z.odd] in EQ; match type of HC with nth (Z.to_nat ?a) _ _ = _ => let v := eval vm_compute in (Z.to_nat a) in change (Z.to_nat a) with v in HC end;
          rewrite HC, EQ, Z.eqb_refl in B; try rewrite E3 in B; cbn [andb] in B; rewrite ?orb_true_r, ?orb_true_l in B; discriminate B. }
      assert (JJ : 2 <= dirs (out d s) -> joined d c).
      { intros D2'. destruct HJ as [->|J]; [|exact J]. exfalso. cbn [upto] in DV. pose proof (beside_dirs d q v s Wq BS). lia. }
      destruct SN as [(O & -> & ->)|[(f & ft & Hf & O & FF & _)|[(E3 & e & ets & ne & fl & He & O & FE & I & _)|(k & cts & nc & Hk & O & FC & I & _)]]].
      + apply (owner_eq d gfp P Hmono t s); auto. unfold owns, tpos. pose proof (qpos_range d s). lia.
      + exfalso. apply (AT f _ Hf FF). rewrite O. rewrite og_face; [rewrite Z.eqb_refl; reflexivity|destruct d; cbn [faces] in Hf; lia|].
        split; [apply Z.div_pos; lia|]. destruct d; cbn [faces] in *; apply Z.div_lt_upper_bound; lia.
      + exfalso. destruct ets as [|x l]; [destruct I|]. assert (J : joined d c) by (apply JJ; rewrite O, dirs_edge; lia).
        destruct (J t Ht) as (J1 & _). destruct (J1 E3 e x l He FE) as (i & n & Hi & FF). destruct (edge_face_obj e i He Hi) as (R & OG).
        apply (AT _ n) in FF; [exact FF|rewrite E3; exact R|rewrite O; exact OG].
      + exfalso. destruct cts as [|x l]; [destruct I|]. assert (J : joined d c) by (apply JJ; rewrite O, dirs_corner; apply nd_pos).
        destruct (J t Ht) as (_ & J1). destruct (J1 k x l Hk FC) as (i & n & Hi & FF). destruct (corner_face_obj d k i Hk Hi) as (R & DI & OG).
        apply (AT _ n) in FF; [exact FF|exact R|rewrite O, DI; exact OG].
    - set (n0 := mkq (qx q - h) (qy q - h) (if is3 d then qz q - h else qz q) (ql q)).
      set (n1 := mkq (qx q + h) (qy q + h) (if is3 d then qz q + h else qz q) (ql q)).
      destruct (_ && _) eqn:IN; [|exists false; split; [reflexivity|discriminate]].
      change ROOT_LEN with (2 ^ 30) in IN.
      assert (V0 : forall i, axis d i -> vget (cv n0) i = vget (cv q) i - h).
      { apply all_axes. split; [reflexivity|]. split; [reflexivity|]. destruct d; [exact I|reflexivity]. }
      assert (V1 : forall i, axis d i -> vget (cv n1) i = vget (cv q) i + h).
      { apply all_axes. split; [reflexivity|]. split; [reflexivity|]. destruct d; [exact I|reflexivity]. }
      assert (R : forall i, axis d i -> 0 <= vget (cv n0) i /\ vget (cv n1) i < 2 ^ 30).
      { apply all_axes. change (vget (cv n0) 0) with (qx n0). change (vget (cv n0) 1) with (qy n0). change (vget (cv n0) 2) with (qz n0).
        change (vget (cv n1) 0) with (qx n1). change (vget (cv n1) 1) with (qy n1). change (vget (cv n1) 2) with (qz n1).
        destruct d; cbn [is3] in IN; lia. }
      pose proof Wq as WQ. apply wf_comp in WQ. destruct WQ as (E & RQ). apply ext_comp in E. destruct E as (_ & Dv & E2).
      assert (EX : forall n sg, ql n = ql q -> (d = D2 -> qz n = qz q) -> (forall i, axis d i -> vget (cv n) i = vget (cv q) i + sg * h) -> ext d n).
      { intros n sg Ln Hz Hn. apply ext_comp. rewrite Ln. split; [exact L|]. split.
        - intros i A. destruct (Dv i A) as (X & EX). exists (X + sg). rewrite (Hn i A), EX. fold h. ring.
        - intros D2'. rewrite (Hz D2'). apply E2. exact D2'. }
      assert (W0 : wf d n0).
      { apply wf_comp. split; [apply (EX n0 (-1)); [reflexivity|intros ->; reflexivity|intros i A; rewrite V0 by exact A; lia]|].
        intros i A. specialize (R i A). specialize (RQ i A). rewrite V0 in * by exact A. lia. }
      assert (W1 : wf d n1).
      { apply wf_comp. split; [apply (EX n1 1); [reflexivity|intros ->; reflexivity|intros i A; rewrite V1 by exact A; lia]|].
        intros i A. specialize (R i A). specialize (RQ i A). rewrite V1 in * by exact A. lia. }
      destruct (owner d gfp P T HP Hlen Hin Hbeg Hend t n0 rank W0 Ht Hrank) as (p0 & -> & Hp0 & O0).
      destruct (p0 =? rank) eqn:EP; [|exists false; split; [reflexivity|discriminate]]. replace p0 with rank in O0 by lia.
      destruct (last_descendant_wf d n1 29 W1 ltac:(cbn [n1 ql]; lia)) as (WL & LL & _).
      destruct (owner d gfp P T HP Hlen Hin Hbeg Hend t (last_descendant d n1 29) rank WL Ht Hrank) as (p1 & EO & Hp1 & O1).
      change QMAXLEVEL with 29. rewrite EO. eexists. split; [reflexivity|]. intros EP1. replace p1 with rank in O1 by lia.
      intros p Hp (v & s & nt & s' & DV & BS & SN & OW). pose proof (proj1 (beside_comp d q v s) BS) as (Es & Ls & _ & BX).
      assert (RG : forall i, axis d i -> vget (cv n0) i <= vget (cv s) i /\ vget (cv s) i + 2 <= vget (cv n1) i + h).
      { intros i A. pose proof (at_axis_range _ _ _ _ S2 (BX i A)). rewrite V0, V1 by exact A. lia. }
      assert (M1 : forall i, axis d i -> vget (cv n1) i + h <= 2 ^ 30).
      { intros i A. pose proof (proj1 (wf_comp d n1) W1) as (E1 & R1). apply ext_comp in E1. destruct E1 as (_ & D1 & _).
        apply (mul_up (ql n1) _ (2 ^ 30)); [change (ql n1) with (ql q); lia|apply D1; exact A|auto|apply R1; exact A]. }
      assert (Ws : wf d s).
      { apply wf_comp. split; [exact Es|]. intros i A. specialize (RG i A). specialize (M1 i A). specialize (R i A). lia. }
      pose proof (proj2 (out_none d s Es) Ws) as OS. apply seen_in in SN; [|exact OS]. destruct SN as (-> & ->).
      apply (owner_eq d gfp P Hmono t s); auto. unfold owns, tpos in *.
      assert (qpos d n0 <= qpos d s) by (apply qpos_mono; auto; intros i A; apply RG; exact A).
      assert (qpos d s <= qpos d (last_descendant d n1 29)).
      { apply qpos_mono; auto. intros i A.
        assert (LD : vget (cv (last_descendant d n1 29)) i = vget (cv n1) i + h - 2).
        { assert (Q : QLEN (ql q) - QLEN 29 = h - 2) by (rewrite QLEN_side by lia; reflexivity). revert i A. apply all_axes.
          split; [change (qx n1 + (QLEN (ql q) - QLEN 29) = qx n1 + h - 2); lia|]. split; [change (qy n1 + (QLEN (ql q) - QLEN 29) = qy n1 + h - 2); lia|].
          destruct d; [exact I|change (qz n1 + (QLEN (ql q) - QLEN 29) = qz n1 + h - 2); lia]. }
        specialize (RG i A). lia. }
      lia.
  Qed.
  Local Notation VIA := (via d c gfp P rank t q).
  Definition sent_to (p : Z) : Prop := 0 <= p < P /\ p <> rank /\ neighbor_rank d c gfp bt t q p.

  Lemma sent_via p : sent_to p <-> exists v, 1 <= dirs v <= upto bt /\ VIA v p.
  Proof.
    unfold sent_to, neighbor_rank, via. split.
    - intros (Hp & N & v & s & nt & s' & D & K). exists v. split; [exact D|]. split; [exact Hp|]. split; [exact N|]. exists s, nt, s'. exact K.
    - intros (v & D & Hp & N & s & nt & s' & K). split; [exact Hp|]. split; [exact N|]. exists v, s, nt, s'. auto.
  Qed.
  Lemma via_flat v p : VIA v p -> d = D2 -> og v 2 = None.
  Proof. intros (_ & _ & s & nt & s' & BS & _). apply beside_comp in BS. apply BS. Qed.

  Definition by_faces p := exists f, In f (face_list d) /\ VIA (face_obj f) p.
  Definition by_edges p := exists e, In e edge_list /\ VIA (edge_obj e) p.
  Definition by_corners p := exists k, In k (corner_list d) /\ VIA (corner_obj d k) p.

  Lemma in_faces f : In f (face_list d) <-> 0 <= f < faces d.
  Proof. unfold face_list. destruct d; cbn [In faces]; lia. Qed.
  Lemma in_edges e : In e edge_list <-> 0 <= e < 12.
  Proof. unfold edge_list. cbn [In]. lia. Qed.
  Lemma in_corners k : In k (corner_list d) <-> 0 <= k < children d.
  Proof. unfold corner_list. destruct d; cbn [In children]; lia. Qed.

  Lemma sent_parts p : sent_to p <-> by_faces p \/ (bt <> CFace /\ d = D3 /\ by_edges p) \/ (bt <> CFace /\ ~ (bt = CEdge /\ d = D3) /\ by_corners p).
  Proof.
    rewrite sent_via. unfold by_faces, by_edges, by_corners. split.
    - intros (v & D & K). destruct (dir_cases d v (via_flat v p K) ltac:(lia)) as [(f & Hf & ->)|[(E3 & e & He & ->)|(k & Hk & ->)]].
      + left. exists f. split; [apply in_faces; exact Hf|exact K].
      + right; left. rewrite dirs_edge in D. split; [intros ->; cbn [upto] in D; lia|]. split; [exact E3|]. exists e. split; [apply in_edges; exact He|exact K].
      + right; right. rewrite dirs_corner in D. pose proof (nd_pos d) as N. split; [intros ->; cbn [upto] in D; lia|].
        split; [intros (-> & E3); rewrite E3 in D; cbn [upto nd] in D; lia|]. exists k. split; [apply in_corners; exact Hk|exact K].
    - intros [(f & Hf & K)|[(N & E3 & e & He & K)|(N & N2 & k & Hk & K)]].
      + exists (face_obj f). split; [rewrite dirs_face; destruct bt; cbn [upto]; lia|exact K].
      + exists (edge_obj e). split; [rewrite dirs_edge; destruct bt; cbn [upto]; [congruence|lia|lia]|exact K].
      + exists (corner_obj d k). split; [|exact K]. rewrite dirs_corner. pose proof (nd_pos d) as NP. destruct bt; cbn [upto]; [congruence| |lia].
        destruct d eqn:E; cbn [nd]; [lia|]. exfalso. apply N2. auto.
  Qed.

  Lemma quad_spec info m0 : tree_info d c gfp rank first last t = Some info -> good d P t q m0 ->
    exists m' S, ghost_quad d c gfp P rank bt info t num q m0 = Some m' /\ st P t num q m0 S m' /\ forall p, In p S <-> sent_to p.
  Proof.
    intros EI Hm. destruct info_spec as (full0 & full1 & con & EI' & HF & HC). rewrite EI in EI'. injection EI' as ->.
    destruct (skip_spec full0 full1 con HF HC) as (b & EB & SK). unfold ghost_quad. rewrite EB.
    pose proof (st_init d P t num q m0 Hm) as ST0. set (m1 := mkmir false (m_mirrors m0) (m_bufs m0) (m_offs m0) (m_sum m0)) in *.
    destruct b.
    - exists m1, []. split; [reflexivity|]. split; [exact ST0|]. intros p. split; [intros []|]. intros (Hp & N & K). destruct N. apply SK; auto.
    - assert (FO : faces_ok d c t) by (apply conn_faces; auto). assert (EO : edges_ok d c t) by (apply conn_edges; auto). assert (CO : corners_ok d c t) by (apply conn_corners; auto).
      assert (AF : adds P t num q m0 (fun m => each_tree (face_step d c gfp P rank t num q) (face_list d) m) by_faces).
      { apply adds_each. intros f If. apply (face_step_spec d c gfp P T rank t num q m0 HP Hlen Hwf Hin Hmono Hbeg Hend Hone Hrank Hm Wq Ht FO EO CO). apply in_faces. exact If. }
      assert (AE : d = D3 -> adds P t num q m0 (fun m => each_tree (Ghost.edge_step d c gfp P rank t num q) edge_list m) by_edges).
      { intros E3. apply adds_each. intros e Ie. apply (edge_step_spec d c gfp P T rank t num q m0 HP Hlen Hwf Hin Hmono Hbeg Hend Hone Hrank Hm Wq Ht FO EO); [exact E3|]. apply in_edges. exact Ie. }
      assert (AC : adds P t num q m0 (fun m => each_tree (corner_step d c gfp P rank t num q) (corner_list d) m) by_corners).
      { apply adds_each. intros k Ik. apply (corner_step_spec d c gfp P T rank t num q m0 HP Hlen Hwf Hin Hmono Hbeg Hend Hone Hrank Hm Wq Ht FO EO CO). apply in_corners. exact Ik. }
      pose proof (adds_ext P t num q m0 _ _ _ (fun p => iff_sym (sent_parts p)) (adds_then P t num q m0 _ _ _ _ AF (bt_adds P t num q m0 bt d _ _ _ _ AE AC))) as A.
      destruct (A m1 [] ST0) as (m' & S' & E & ST & I). rewrite app_nil_r in ST. exists m', S'. split; [exact E|]. auto.
  Qed.
End Quad1.
