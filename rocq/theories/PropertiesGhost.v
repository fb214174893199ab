(** * Properties of the ghost layer: C59 *)

From Coq Require Import ZArith List Bool Lia Arith ZifyBool Sorting.Sorted.
From Verif Require Import Quad Spec Interval QuadLemmas DescLemmas RangeBoundLemmas PropertiesNeighbor Transform
  Conn ConnLemmas Partition PartLemmas PartTrees PartFinal Comm CommLemmas OwnerLemmas PropertiesOwner
  Ghost GhostSpec GhostState GhostQuad GhostLoop GhostForest.
Import ListNotations.
Open Scope Z_scope.

(** leaf q of tree t and leaf q' of tree t' are neighbors: a smallest quadrant of q' touches q
    from outside across a face (an edge, a corner) *)
Definition neighbors (d : dim) (c : conn) (bt : ctype) (t : Z) (q : quad) (t' : Z) (q' : quad) : Prop :=
  exists v s s', 1 <= dirs v <= upto bt /\ beside d q v s /\ seen_as d c t s t' s' /\ forall x y z, inq d s' x y z -> inq d q' x y z.

(** the ghost condition: leaf g has a neighbor among the leaves of r *)
Definition has_neighbor (d : dim) (c : conn) (bt : ctype) (T : Z) (r : rk quad) (g : gq) : Prop :=
  exists t' q', In (t', q') (loc T r) /\ neighbors d c bt (g_t g) (g_q g) t' q'.

(** the entries number [i, j) of a list *)
Definition slice {A} (l : list A) (i j : Z) : list A := firstn (Z.to_nat (j - i)) (skipn (Z.to_nat i) l).

Lemma proc_mirrors_slice : forall (offs : list (list Z)) sum pm po, 0 <= sum -> proc_mirrors sum offs = (pm, po) ->
  zlen po = zlen offs + 1 /\ forall p o, zget offs p = Some o -> exists a e, zget po p = Some a /\ zget po (p + 1) = Some e /\ sum <= a <= e /\ slice pm (a - sum) (e - sum) = o.
Proof.
  induction offs as [|x offs IH]; intros sum pm po Hs; cbn [proc_mirrors].
  - intros [= <- <-]. split; [reflexivity|]. intros p o H. exfalso. apply zget_range in H. unfold zlen in H. cbn in H. lia.
  - assert (Nx : 0 <= zlen x) by (unfold zlen; lia). destruct (proc_mirrors (sum + zlen x) offs) as (a0, b0) eqn:E. intros [= <- <-]. assert (Hs2 : 0 <= sum + zlen x) by lia. destruct (IH _ _ _ Hs2 E) as (L & H). split; [unfold zlen in *; cbn [length]; lia|].
    assert (H0 : forall l, zget (sum :: l) 0 = Some sum) by reflexivity.
    assert (HS : forall A (y : A) l i, 0 <= i -> zget (y :: l) (i + 1) = zget l i).
    { intros A y l i Hi. rewrite !zget_nth by lia. replace (Z.to_nat (i + 1)) with (S (Z.to_nat i)) by lia. reflexivity. }
    intros p o Ho. pose proof (zget_range _ _ _ Ho) as R. destruct (Z.eq_dec p 0) as [->|N].
    + cbn in Ho. injection Ho as <-. exists sum, (sum + zlen x). split; [reflexivity|]. split.
      * rewrite HS by lia. destruct offs; cbn [proc_mirrors] in E; [injection E as <- <-; reflexivity|]. destruct (proc_mirrors (sum + zlen x + zlen l) offs). injection E as <- <-. reflexivity.
      * split; [lia|]. unfold slice. rewrite Z.sub_diag. change (Z.to_nat 0) with 0%nat. cbn [skipn]. replace (Z.to_nat (sum + zlen x - sum - 0)) with (length x) by (unfold zlen; lia).
        rewrite firstn_app, Nat.sub_diag, firstn_all, firstn_O, app_nil_r. reflexivity.
    + replace p with ((p - 1) + 1) in Ho by lia. rewrite HS in Ho by lia. destruct (H (p - 1) o Ho) as (a & e & Ea & Ee & Ra & Sl).
      exists a, e. replace p with ((p - 1) + 1) at 1 by lia. rewrite !HS by lia. split; [exact Ea|]. split; [replace p with (p - 1 + 1) by lia; exact Ee|]. split; [lia|].
      unfold slice in *. replace (Z.to_nat (e - sum - (a - sum))) with (Z.to_nat (e - (sum + zlen x) - (a - (sum + zlen x)))) by lia.
      replace (Z.to_nat (a - sum)) with (length x + Z.to_nat (a - (sum + zlen x)))%nat by (unfold zlen in *; lia).
      rewrite skipn_app. rewrite skipn_all2 by lia. cbn [app]. replace (length x + Z.to_nat (a - (sum + zlen x)) - length x)%nat with (Z.to_nat (a - (sum + zlen x))) by lia. exact Sl.
Qed.

Section Send.
  Variables (d : dim) (c : conn) (bt : ctype) (ranks : list (rk quad)).
  Let T := c_nt c.
  Hypothesis V : conn_is_valid d c = Some true.
  Hypothesis PE : 0 <= c_ne c.
  Hypothesis PC : 0 <= c_nc c.
  Hypothesis HJ : bt = CFace \/ joined d c.
  Hypothesis HF : forest_ok d qid T ranks.
  Hypothesis HC : covers d qid 0 (T * TREE d) (glob T ranks).
  Hypothesis HT : 0 <= T.
  Hypothesis NS : no_single T ranks.

  Lemma send_iff ms rank p r' g : global_partition qid T ranks = Some ms -> zget ranks p = Some r' -> 0 <= g_t g < T -> wf d (g_q g) ->
    (sends d c ms (zlen ranks) rank bt p g <-> p <> rank /\ has_neighbor d c bt T r' g).
  Proof.
    intros EM Er Ht Wq. pose proof (owns_leaf d T ranks HF HC ms EM p) as OL.
    unfold sends, sent_to, neighbor_rank, has_neighbor, neighbors. split.
    - intros (Hp & N & v & s & nt & s' & D & BS & SN & OW). split; [exact N|].
      destruct (seen_wf d c _ _ v s nt s' V Ht PE PC Wq BS SN) as (Ws & Ls & Rt).
      destruct (proj1 (OL nt s' Rt Ws Ls) (conj Hp OW)) as (r & q' & E & I & IN). rewrite Er in E. injection E as <-.
      exists nt, q'. split; [exact I|]. exists v, s, s'. auto.
    - intros (N & nt & q' & I & v & s & s' & D & BS & SN & IN).
      destruct (seen_wf d c _ _ v s nt s' V Ht PE PC Wq BS SN) as (Ws & Ls & Rt).
      destruct (proj2 (OL nt s' Rt Ws Ls)) as (Hp & OW); [exists r', q'; auto|].
      split; [exact Hp|]. split; [exact N|]. exists v, s, nt, s'. auto.
  Qed.

  Lemma send_rank ms rank r : global_partition qid T ranks = Some ms -> zget ranks rank = Some r ->
    exists m mto, ghost_send d c ms (zlen ranks) rank bt (k_first _ r) (k_last _ r) (k_trees _ r) = Some (m, mto) /\
      inv d c ms (zlen ranks) rank bt (enum 0 (loc T r)) m /\
      zlen mto = T + 1 /\ forall t, 0 <= t <= T -> zget mto t = Some (before t (m_mirrors m)).
  Proof.
    intros EM Er. destruct (forest_markers d T ranks HF HC) as (ms' & E' & L & MW & MI & MM & MB & ME & ONE & BND). rewrite EM in E'. injection E' as <-.
    destruct (skipn_zget ranks rank r Er) as (Hr & _).
    assert (RK : rk_ok T r). { destruct HF as (RK & _). rewrite Forall_forall in RK. apply RK. rewrite zget_nth in Er by lia. eapply nth_error_In. exact Er. }
    pose proof (loc_range T r RK) as LR. rewrite LR, enum_numbered.
    assert (IL : forall t q, k_first _ r <= t <= k_last _ r -> In q (k_trees _ r t) -> In (t, q) (loc T r)).
    { intros t q Ht Hq. rewrite LR. apply in_loc_from. split; [lia|exact Hq]. }
    assert (NE : k_first _ r <= k_last _ r -> forall t, k_first _ r <= t <= k_last _ r -> exists q, In (t, q) (loc T r)).
    { intros Hfl t Ht. destruct RK as [(A & B & _)|(_ & _ & N)]; [lia|]. destruct (k_trees _ r t) as [|q qs] eqn:E; [exfalso; apply (proj2 (N t) Ht); exact E|].
      exists q. apply IL; [exact Ht|]. rewrite E. left. reflexivity. }
    pose proof (tree_pos d) as TP. apply (send_spec d c ms (zlen ranks) rank (k_first _ r) (k_last _ r) bt (k_trees _ r)); auto; try (fold T).
    - lia.
    - intros Hfl. destruct (NE Hfl (k_first _ r) ltac:(lia)) as (q & I). destruct (BND rank r _ Er I) as (B & _). cbn [fst snd] in B. pose proof (qpos_range d q). unfold tpos in B. lia.
    - intros Hfl. destruct (NE Hfl (k_last _ r) ltac:(lia)) as (q & I). destruct (BND rank r _ Er I) as (_ & B). cbn [fst snd] in B.
      assert (Wq : wf d q) by (apply (proj1 (proj2 HF) (k_last _ r, q)); apply (in_glob T ranks _ r _ Er I)). pose proof (qpos_range d q). pose proof (qsize_pos d q Wq). unfold tend, qend in B. lia.
    - intros Hfl. destruct RK as [(A & B & _)|(R1 & R2 & _)]; lia.
    - intros t q Ht Hq. pose proof (IL t q Ht Hq) as I.
      assert (Wq : wf d q) by (apply (proj1 (proj2 HF) (t, q)); apply (in_glob T ranks _ r _ Er I)). split; [exact Wq|].
      destruct (BND rank r _ Er I) as (B1 & B2). cbn [fst snd] in *. pose proof (qsize_pos d q Wq). unfold owns. unfold tpos, tend, qend in *. lia.
    - destruct RK as [(A & B & _)|(R1 & R2 & _)]; [right|left]; lia.
    - rewrite <- enum_numbered, enum_key, <- LR. apply (loc_nodup d T ranks HF rank r Er).
  Qed.
End Send.

(** C59: what p4est_ghost_new sends, on every rank of every distribution of a complete forest.
    The buffer for rank p holds exactly the local leaves that have a neighbor among the leaves
    of p, in order and with their local numbers.  The mirrors are exactly the leaves with a
    neighbor on another rank; mirror_proc_mirrors with its offsets gives for each rank p the
    positions of the leaves sent to p among the mirrors; mirror_tree_offsets counts the mirrors
    of the trees before.
    Partial: no rank has just one leaf of the highest level, and for connections across edges
    or corners any trees that meet at an edge or a corner also have some neighbor tree across
    a face there. *)
Theorem C59_ghost_send_partial : forall d c bt (ranks : list (rk quad)), let T := c_nt c in
  conn_is_valid d c = Some true -> 0 <= T -> 0 <= c_ne c -> 0 <= c_nc c ->
  forest_ok d qid T ranks -> covers d qid 0 (T * TREE d) (glob T ranks) ->
  no_single T ranks -> bt = CFace \/ joined d c ->
  exists ms, global_partition qid T ranks = Some ms /\ forall rank r, zget ranks rank = Some r ->
  exists m mto pm po,
    ghost_send d c ms (zlen ranks) rank bt (k_first _ r) (k_last _ r) (k_trees _ r) = Some (m, mto) /\
    proc_mirrors 0 (m_offs m) = (pm, po) /\
    selects (fun g => exists p r', zget ranks p = Some r' /\ p <> rank /\ has_neighbor d c bt T r' g) (enum 0 (loc T r)) (m_mirrors m) /\
    zlen (m_bufs m) = zlen ranks /\ m_sum m = sumlen (m_bufs m) /\
    (forall p r', zget ranks p = Some r' -> exists b a e,
       zget (m_bufs m) p = Some b /\ zget po p = Some a /\ zget po (p + 1) = Some e /\
       selects (fun g => p <> rank /\ has_neighbor d c bt T r' g) (enum 0 (loc T r)) b /\
       Forall2 (fun i g => zget (m_mirrors m) i = Some g) (slice pm a e) b) /\
    zlen mto = T + 1 /\
    forall t, 0 <= t <= T -> zget mto t = Some (zlen (filter (fun g => g_t g <? t) (m_mirrors m))).
Proof.
  intros d c bt ranks T V HT PE PC HF HC NS HJ.
  destruct (forest_markers d T ranks HF HC) as (ms & EM & _). exists ms. split; [exact EM|]. intros rank r Er.
  destruct (send_rank d c bt ranks V PE PC HJ HF HC HT NS ms rank r EM Er) as (m & mto & ES & (LB & LO & SM & SEL & EV) & LM & MT).
  destruct (proc_mirrors 0 (m_offs m)) as (pm, po) eqn:EPM. exists m, mto, pm, po. split; [exact ES|]. split; [exact EPM|].
  destruct (proc_mirrors_slice _ 0 _ _ (Z.le_refl 0) EPM) as (LP & SL).
  assert (IG : forall g, In g (enum 0 (loc T r)) -> 0 <= g_t g < T /\ wf d (g_q g)).
  { intros g Hg. apply enum_in in Hg. pose proof (in_glob T ranks rank r _ Er Hg) as IG. split; [apply (glob_label T ranks _ IG)|apply (proj1 (proj2 HF) _ IG)]. }
  split.
  { eapply selects_ext; [|exact SEL]. intros g Hg. destruct (IG g Hg) as (Ht & Wq). cbn beta. split.
    - intros (p & K). assert (Hp : 0 <= p < zlen ranks) by (destruct K as (K & _); exact K).
      destruct (zget ranks p) as [r'|] eqn:Ep.
      2:{ rewrite zget_nth in Ep by lia. apply nth_error_None in Ep. unfold zlen in Hp. lia. }
      exists p, r'. split; [exact Ep|]. apply (send_iff d c bt ranks V PE PC HF HC ms rank p r' g EM Ep Ht Wq). exact K.
    - intros (p & r' & Ep & K). exists p. apply (send_iff d c bt ranks V PE PC HF HC ms rank p r' g EM Ep Ht Wq). exact K. }
  split; [exact LB|]. split; [exact SM|]. split; [|split; [exact LM|exact MT]].
  intros p r' Ep. destruct (skipn_zget ranks p r' Ep) as (Hp & _). destruct (EV p Hp) as (b & o & Eb & Eo & SB & F2).
  destruct (SL p o Eo) as (a & e & Ea & Ee & _ & ESl). rewrite !Z.sub_0_r in ESl. exists b, a, e. split; [exact Eb|]. split; [exact Ea|]. split; [exact Ee|].
  split; [|rewrite ESl; exact F2]. eapply selects_ext; [|exact SB]. intros g Hg. destruct (IG g Hg) as (Ht & Wq).
  apply (send_iff d c bt ranks V PE PC HF HC ms rank p r' g EM Ep Ht Wq).
Qed.

(** *** Concrete forests *)

Lemma covers_sorted d : forall (l : list (Z * quad)) a b, (forall x, In x l -> wf d (snd x)) -> covers d qid a b l ->
  StronglySorted (fun x y => tend d (fst x) (snd x) <= tpos d (fst y) (snd y)) l /\ forall x, In x l -> a <= tpos d (fst x) (snd x).
Proof.
  induction l as [|x l IH]; intros a b W C; [split; [constructor|intros y []]|]. destruct C as [E C].
  destruct (IH _ _ (fun y Hy => W y (or_intror Hy)) C) as (S & LB). pose proof (qsize_pos d _ (W x (or_introl eq_refl))) as QS.
  split.
  - constructor; [exact S|]. apply Forall_forall. exact LB.
  - intros y [<-|Hy]; [lia|]. specialize (LB y Hy). unfold tend, tpos, qend in *. lia.
Qed.
Lemma forest_by_covers d T (ranks : list (rk quad)) : Forall (rk_ok T) ranks -> forallb (fun x => is_valid d (snd x)) (glob T ranks) = true ->
  covers d qid 0 (T * TREE d) (glob T ranks) -> forest_ok d qid T ranks.
Proof.
  intros R F C. assert (W : forall x, In x (glob T ranks) -> wf d (snd x)) by (intros x Hx; apply is_valid_wf; rewrite forallb_forall in F; apply F; exact Hx).
  split; [exact R|]. split; [exact W|]. eapply covers_sorted; [exact W|exact C].
Qed.
(** a rank with leaves in one tree *)
Definition rk1 (t : Z) (l : list quad) : rk quad := mkrk quad t t (fun t' => if t' =? t then l else []).
Lemma rk1_ok T t l : 0 <= t < T -> l <> [] -> rk_ok T (rk1 t l).
Proof. intros H N. right. cbn. split; [lia|]. split; [lia|]. intros t'. destruct (t' =? t) eqn:E; split; intros; try lia; try assumption. congruence. Qed.

Definition g_root := mkq 0 0 0 0.
(** two trees, the right face of tree 0 is the left face of tree 1 upside down *)
Definition g_conn : conn :=
  mkconn 0 2 0 0 None None 0 None [0; 1; 0; 0;  0; 1; 1; 1] [0; 4; 2; 3;  5; 1; 2; 3] [] [] [] [] [] [0] [] [].
(** three ranks without leaves, and three with *)
Definition g_ranks : list (rk quad) :=
  [ mkrk quad (-1) (-2) (fun _ => []);
    rk1 0 [child D2 g_root 0; child D2 g_root 1];
    mkrk quad 0 1 (fun t => if t =? 0 then [child D2 g_root 2; child D2 (child D2 g_root 3) 0; child D2 (child D2 g_root 3) 1; child D2 (child D2 g_root 3) 2; child D2 (child D2 g_root 3) 3]
                            else if t =? 1 then [child D2 g_root 0] else []);
    mkrk quad (-1) (-2) (fun _ => []);
    rk1 1 [child D2 g_root 1; child D2 g_root 2; child D2 g_root 3];
    mkrk quad (-1) (-2) (fun _ => []) ].
Definition g_sends (d : dim) (c : conn) (bt : ctype) (ranks : list (rk quad)) : list (option (mir * list Z)) :=
  match global_partition qid (c_nt c) ranks with
  | None => []
  | Some ms => map (fun i => match zget ranks (Z.of_nat i) with
                             | None => None
                             | Some r => ghost_send d c ms (zlen ranks) (Z.of_nat i) bt (k_first _ r) (k_last _ r) (k_trees _ r)
                             end) (seq 0 (length ranks))
  end.
Definition numbers (x : option (mir * list Z)) : list (list Z) := match x with None => [] | Some (m, _) => map (map g_num) (m_bufs m) end.

Lemma g_hyps : conn_is_valid D2 g_conn = Some true /\ forest_ok D2 qid 2 g_ranks /\ covers D2 qid 0 (2 * TREE D2) (glob 2 g_ranks) /\
  no_single 2 g_ranks /\ joined D2 g_conn.
Proof.
  assert (C : covers D2 qid 0 (2 * TREE D2) (glob 2 g_ranks)) by (vm_compute; repeat split).
  split; [vm_compute; reflexivity|]. split; [|split; [exact C|split]].
  - apply forest_by_covers; [|vm_compute; reflexivity|exact C].
    repeat (constructor; [first [left; cbn; auto; fail | apply rk1_ok; [lia|discriminate] | idtac]|]); [|constructor].
    right. cbn [k_first k_last k_trees]. split; [lia|]. split; [lia|]. intros t. destruct (t =? 0) eqn:?, (t =? 1) eqn:?; split; intros H; try lia; try discriminate; destruct (H eq_refl).
  - intros r t q H E. repeat (destruct H as [<-|H]; [vm_compute in E; discriminate E|]). destruct H.
  - intros t Ht. split; [discriminate|]. intros k x l Hk E. cbn in Ht, Hk.
    assert (B : t = 0 \/ t = 1) by (clear - Ht; lia). assert (K : k = 0 \/ k = 1 \/ k = 2 \/ k = 3) by (clear - Hk; lia).
    destruct B as [-> | ->]; destruct K as [-> |[-> |[-> | ->]]]; vm_compute in E; discriminate E.
Qed.

(** the leaf numbers per sending and receiving rank: leaf 1 of rank 1, the lower right of tree 0,
    touches the upper left of tree 1 (rank 4); leaf 5 of rank 2, the lower left of tree 1, touches
    the lower right of tree 0 (rank 1) at the middle of the common face *)
Example C59_ex : map numbers (g_sends D2 g_conn CFull g_ranks) =
  [ [[]; []; []; []; []; []];
    [[]; []; [0; 1]; []; [1]; []];
    [[]; [0; 1; 2; 5]; []; []; [2; 5]; []];
    [[]; []; []; []; []; []];
    [[]; [1]; [0; 1; 2]; []; []; []];
    [[]; []; []; []; []; []] ].
Proof. vm_compute. reflexivity. Qed.

(** *** Where it fails *)

(** two trees that meet at a corner only: p4est_comm_neighborhood_owned skips a leaf of a tree
    that the rank owns completely unless it touches a tree face with a neighbor tree *)
Definition corner_conn : conn :=
  mkconn 0 2 0 1 None None 0 None [0; 0; 0; 0; 1; 1; 1; 1] [0; 1; 2; 3; 0; 1; 2; 3] [] [0] [] [] [-1; -1; -1; 0; 0; -1; -1; -1] [0; 2] [0; 1] [3; 0].
Definition corner_ranks : list (rk quad) :=
  [ rk1 0 [g_root]; rk1 1 [child D2 g_root 0]; rk1 1 [child D2 g_root 1; child D2 g_root 2; child D2 g_root 3] ].

Definition hyps (d : dim) (c : conn) (ranks : list (rk quad)) : Prop :=
  conn_is_valid d c = Some true /\ 0 <= c_nt c /\ 0 <= c_ne c /\ 0 <= c_nc c /\
  forest_ok d qid (c_nt c) ranks /\ covers d qid 0 (c_nt c * TREE d) (glob (c_nt c) ranks).

Lemma corner_hyps : hyps D2 corner_conn corner_ranks.
Proof.
  assert (C : covers D2 qid 0 (2 * TREE D2) (glob 2 corner_ranks)) by (vm_compute; repeat split).
  split; [vm_compute; reflexivity|]. do 3 (split; [cbn; lia|]). split; [|exact C].
  apply forest_by_covers; [|vm_compute; reflexivity|exact C]. repeat (constructor; [apply rk1_ok; [cbn; lia|discriminate]|]). constructor.
Qed.

(** The leaf of rank 0 has a neighbor on rank 1 but is not sent; rank 1 sends its leaf and waits:
    p4est_ghost_new does not return. *)
Theorem C59_corner_refuted : exists c ranks r0 r1 g ms bufs,
  hyps D2 c ranks /\ no_single (c_nt c) ranks /\ global_partition qid (c_nt c) ranks = Some ms /\
  zget ranks 0 = Some r0 /\ zget ranks 1 = Some r1 /\ In g (enum 0 (loc (c_nt c) r0)) /\ has_neighbor D2 c CFull (c_nt c) r1 g /\
  Forall2 (fun s b => exists m mto, s = Some (m, mto) /\ m_bufs m = b) (g_sends D2 c CFull ranks) bufs /\
  (exists b, zget bufs 0 = Some b /\ Forall (fun l => l = []) b) /\
  ghost_exchange bufs 0 = None /\ ghost_exchange bufs 1 = None.
Proof.
  exists corner_conn, corner_ranks, (rk1 0 [g_root]), (rk1 1 [child D2 g_root 0]), (mkgq 0 0 g_root).
  destruct (global_partition qid (c_nt corner_conn) corner_ranks) as [ms|] eqn:EM; [|exfalso; vm_compute in EM; discriminate EM]. exists ms.
  exists (map (fun s => match s with Some (m, _) => m_bufs m | None => [] end) (g_sends D2 corner_conn CFull corner_ranks)).
  split; [exact corner_hyps|]. split.
  { intros r t q H E. repeat (destruct H as [<-|H]; [vm_compute in E; first [discriminate E | injection E as _ <-; reflexivity]|]). destruct H. }
  split; [reflexivity|]. split; [reflexivity|]. split; [reflexivity|]. split; [left; reflexivity|]. split.
  { exists 1, (child D2 g_root 0). split; [left; reflexivity|]. exists (Some true, Some true, None), (mkq (2 ^ 30) (2 ^ 30) 0 29), (mkq 0 0 0 29).
    split; [cbn; lia|]. split; [|split].
    - split; [|split; [reflexivity|cbn; auto]]. split; [cbn; lia|]. split; [exists (2 ^ 29); reflexivity|]. split; [exists (2 ^ 29); reflexivity|reflexivity].
    - right. right. right. exists 3, [(1, 0)], 0. repeat split; try (cbn; lia); try (vm_compute; reflexivity). left. reflexivity.
    - replace (child D2 g_root 0) with (mkq 0 0 0 1) by (vm_compute; reflexivity). intros x y z. unfold inq. cbn [qx qy qz ql]. change (side 29) with 2. change (side 1) with 536870912. lia. }
  split; [|split; [|split; vm_compute; reflexivity]].
  - vm_compute. repeat constructor; eexists; eexists; split; reflexivity.
  - eexists. split; [vm_compute; reflexivity|]. repeat constructor.
Qed.

(** a forest refined towards one smallest quadrant, the only leaf of rank 1; it touches child 1
    of the root from the left *)
Fixpoint path_leaves (q : quad) (path : list Z) : list quad :=
  match path with
  | [] => [q]
  | i :: p => flat_map (fun j => if j =? i then path_leaves (child D2 q j) p else [child D2 q j]) [0; 1; 2; 3]
  end.
Definition single_leaves : list quad := path_leaves g_root (0 :: 3 :: repeat 1 27).
Definition single_ranks : list (rk quad) :=
  [ rk1 0 (firstn 30 single_leaves); rk1 0 (firstn 1 (skipn 30 single_leaves)); rk1 0 (firstn 54 (skipn 31 single_leaves)); rk1 0 (skipn 85 single_leaves) ].
Definition single_conn : conn :=
  mkconn 0 1 0 0 None None 0 None [0; 0; 0; 0] [0; 1; 2; 3] [] [] [] [] [] [0] [] [].

Lemma single_hyps : hyps D2 single_conn single_ranks.
Proof.
  assert (C : covers D2 qid 0 (1 * TREE D2) (glob 1 single_ranks)) by (vm_compute; repeat split).
  split; [vm_compute; reflexivity|]. do 3 (split; [cbn; lia|]). split; [|exact C].
  apply forest_by_covers; [|vm_compute; reflexivity|exact C]. repeat (constructor; [apply rk1_ok; [cbn; lia|vm_compute; discriminate]|]). constructor.
Qed.

(** The first leaf of rank 3 has a neighbor across a face on rank 1, which has just one leaf of
    the highest level, but is not sent; rank 1 sends its leaf to rank 3 and waits.  (With
    assertions enabled the code aborts in p4est_find_range_boundaries.) *)
Theorem C59_single_refuted : exists c ranks r3 r1 g ms bufs,
  hyps D2 c ranks /\ global_partition qid (c_nt c) ranks = Some ms /\
  zget ranks 3 = Some r3 /\ zget ranks 1 = Some r1 /\ In g (enum 0 (loc (c_nt c) r3)) /\ has_neighbor D2 c CFace (c_nt c) r1 g /\
  Forall2 (fun s b => exists m mto, s = Some (m, mto) /\ m_bufs m = b) (g_sends D2 c CFace ranks) bufs /\
  (exists b, zget bufs 3 = Some b /\ zget b 1 = Some []) /\
  ghost_exchange bufs 3 = None /\ ghost_exchange bufs 1 = None.
Proof.
  exists single_conn, single_ranks, (rk1 0 (skipn 85 single_leaves)), (rk1 0 (firstn 1 (skipn 30 single_leaves))), (mkgq 0 0 (child D2 g_root 1)).
  destruct (global_partition qid (c_nt single_conn) single_ranks) as [ms|] eqn:EM; [|exfalso; vm_compute in EM; discriminate EM]. exists ms.
  exists (map (fun s => match s with Some (m, _) => m_bufs m | None => [] end) (g_sends D2 single_conn CFace single_ranks)).
  split; [exact single_hyps|].
  split; [reflexivity|]. split; [reflexivity|]. split; [reflexivity|]. split; [left; vm_compute; reflexivity|]. split.
  { exists 0, (mkq (2 ^ 29 - 2) (2 ^ 28) 0 29). split; [left; vm_compute; reflexivity|]. exists (Some false, None, None), (mkq (2 ^ 29 - 2) (2 ^ 28) 0 29), (mkq (2 ^ 29 - 2) (2 ^ 28) 0 29).
    split; [cbn; lia|]. split; [|split; [|auto]].
    - split; [|split; [reflexivity|]].
      + split; [cbn; lia|]. split; [exists (2 ^ 28 - 1); reflexivity|]. split; [exists (2 ^ 27); reflexivity|reflexivity].
      + vm_compute. repeat split; discriminate.
    - left. repeat split. }
  split; [|split; [|split; vm_compute; reflexivity]].
  - vm_compute. repeat constructor; eexists; eexists; split; reflexivity.
  - eexists. split; vm_compute; reflexivity.
Qed.

Print Assumptions C59_ghost_send_partial.
Print Assumptions C59_corner_refuted.
Print Assumptions C59_single_refuted.
