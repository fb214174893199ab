(** * Properties of the ghost layer after the exchange: C60 *)

From Coq Require Import ZArith List Bool Lia Arith ZifyBool Sorting.Sorted.
From Verif Require Import Quad Spec Interval QuadLemmas DescLemmas RangeBoundLemmas PropertiesNeighbor Transform PropertiesTransform
  Conn ConnLemmas Partition PartLemmas PartTrees PartFinal Comm CommLemmas OwnerLemmas PropertiesOwner
  Ghost GhostSpec GhostState GhostGeom GhostQuad GhostLoop GhostForest GhostSym GhostCells GhostTouch PropertiesGhost.
Import ListNotations.
Open Scope Z_scope.

(** the neighbor relation of leaves is symmetric *)
Lemma neighbors_sym d c bt t q t' q' : conn_is_valid d c = Some true -> 0 <= c_ne c -> 0 <= c_nc c -> sym_ok d c bt ->
  0 <= t < c_nt c -> wf d q -> wf d q' ->
  (forall u, wf d u -> ql u = 29 -> t = t' -> (forall x y z, inq d u x y z -> inq d q x y z) -> (forall x y z, inq d u x y z -> inq d q' x y z) -> False) ->
  neighbors d c bt t q t' q' -> neighbors d c bt t' q' t q.
Proof.
  intros V PE PC SO Ht Wq Wq' DJ (v & s & s' & D & BS & SN & IN).
  destruct (near_spec d q v s Wq BS) as (Wu & IU & BU). set (u := near_cell d q v s) in *. assert (Lu : ql u = 29) by reflexivity. clearbody u.
  destruct (seen_wf d c t q v s t' s' V Ht PE PC Wq BS SN) as (Ws & Ls & Rt).
  assert (Eu : ext d u) by (apply wf_ext in Wu; apply Wu). assert (Es' : ext d s') by (apply wf_ext in Ws; apply Ws).
  assert (TU : touch d c bt t u t' s').
  { exists s. pose proof (proj1 (beside_comp d u v s) BU) as (Es & Ls0 & _). split; [exact Es|]. split; [exact Ls0|]. split; [|exact SN]. apply (beside_close d bt u v s Eu Lu BU D). }
  apply touch_sym in TU; auto. destruct TU as (s2 & E2 & L2 & CL & SN2).
  assert (Zu : d = D2 -> qz u = 0) by (apply ext_comp in Eu; apply Eu). assert (Zs : d = D2 -> qz s' = 0) by (apply ext_comp in Es'; apply Es').
  assert (IU' : forall x y z, inq d u x y z -> inq d q x y z) by (apply inq_box; [lia|exact Zu|exact IU]).
  assert (IS : inbox d q' s') by (apply inq_box; [lia|exact Zs|exact IN]).
  assert (NI : ~ inbox d q' s2).
  { intros I2. assert (E' : ext d q') by (apply wf_ext in Wq'; apply Wq'). pose proof (GhostOut.inbox_out d q' s2 E' E2 I2) as O. rewrite (proj2 (GhostOut.out_none d q' E') Wq') in O.
    assert (W2 : wf d s2) by (apply GhostOut.out_none; auto).
    assert (K : t = t' /\ u = s2).
    { destruct SN2 as [(_ & -> & ->)|[(f & ft & _ & X & _)|[(_ & e & _ & _ & _ & _ & X & _)|(k & _ & _ & _ & X & _)]]]; [auto| | |]; exfalso; rewrite <- O in X.
      - pose proof (GhostOut.dirs_face f) as DF. rewrite <- X in DF. discriminate DF.
      - pose proof (GhostOut.dirs_edge e) as DF. rewrite <- X in DF. discriminate DF.
      - pose proof (GhostOut.dirs_corner d k) as DF. rewrite <- X in DF. destruct d; discriminate DF. }
    destruct K as (Et & ->). apply (DJ s2 W2 L2 Et IU'). apply inq_box; [lia|exact Zu|exact I2]. }
  destruct (dir_spec d bt q' s' s2 Wq' Es' Ls IS E2 L2 CL NI) as (D2' & B2). exists (dir_to d q' s2), s2, u. auto.
Qed.

(** ** The receiving side *)
Fixpoint joins {A} (sum : Z) (l : list (list A)) : list A * list Z :=
  match l with [] => ([], [sum]) | o :: l' => let (a, b) := joins (sum + zlen o) l' in (o ++ a, sum :: b) end.
Lemma zget_cons {A} (y : A) l i : 0 <= i -> zget (y :: l) (i + 1) = zget l i.
Proof. intros Hi. rewrite !zget_nth by lia. replace (Z.to_nat (i + 1)) with (S (Z.to_nat i)) by lia. reflexivity. Qed.
Lemma joins_head {A} : forall (l : list (list A)) sum, zget (snd (joins sum l)) 0 = Some sum.
Proof. intros [|x l] sum; cbn [joins]; [reflexivity|]. destruct (joins (sum + zlen x) l). reflexivity. Qed.
Lemma joins_slice {A} : forall (offs : list (list A)) sum pm po, 0 <= sum -> joins sum offs = (pm, po) ->
  pm = concat offs /\ zlen po = zlen offs + 1 /\ zget po (zlen offs) = Some (sum + zlen pm) /\
  forall p o, zget offs p = Some o -> exists a e, zget po p = Some a /\ zget po (p + 1) = Some e /\ sum <= a <= e /\ slice pm (a - sum) (e - sum) = o.
Proof.
  induction offs as [|x offs IH]; intros sum pm po Hs; cbn [joins].
  - intros [= <- <-]. split; [reflexivity|]. split; [reflexivity|]. split; [unfold zlen; cbn; rewrite Z.add_0_r; reflexivity|]. intros p o H. exfalso. apply zget_range in H. unfold zlen in H. cbn in H. lia.
  - assert (Nx : 0 <= zlen x) by (unfold zlen; lia). pose proof (joins_head offs (sum + zlen x)) as JH. destruct (joins (sum + zlen x) offs) as (a0, b0) eqn:E. cbn [snd] in JH. intros [= <- <-].
    assert (Hs2 : 0 <= sum + zlen x) by lia. destruct (IH _ _ _ Hs2 E) as (EP & L & LA & H). split; [rewrite EP; reflexivity|]. split; [unfold zlen in *; cbn [length]; lia|].
    split. { replace (zlen (x :: offs)) with (zlen offs + 1) by (unfold zlen; cbn [length]; lia). rewrite zget_cons by (unfold zlen; lia). rewrite LA. f_equal. unfold zlen. rewrite app_length. lia. }
    intros p o Ho. pose proof (zget_range _ _ _ Ho) as R. destruct (Z.eq_dec p 0) as [->|N].
    + cbn in Ho. injection Ho as <-. exists sum, (sum + zlen x). split; [reflexivity|]. split.
      * rewrite zget_cons by lia. exact JH.
      * split; [lia|]. unfold slice. rewrite Z.sub_diag. change (Z.to_nat 0) with 0%nat. cbn [skipn]. replace (Z.to_nat (sum + zlen x - sum - 0)) with (length x) by (unfold zlen; lia).
        rewrite firstn_app, Nat.sub_diag, firstn_all, firstn_O, app_nil_r. reflexivity.
    + replace p with ((p - 1) + 1) in Ho by lia. rewrite zget_cons in Ho by lia. destruct (H (p - 1) o Ho) as (a & e & Ea & Ee & Ra & Sl).
      exists a, e. replace p with ((p - 1) + 1) at 1 by lia. rewrite !zget_cons by lia. split; [exact Ea|]. split; [replace p with (p - 1 + 1) by lia; exact Ee|]. split; [lia|].
      unfold slice in *. replace (Z.to_nat (e - sum - (a - sum))) with (Z.to_nat (e - (sum + zlen x) - (a - (sum + zlen x)))) by lia.
      replace (Z.to_nat (a - sum)) with (length x + Z.to_nat (a - (sum + zlen x)))%nat by (unfold zlen in *; lia).
      rewrite skipn_app. rewrite skipn_all2 by lia. cbn [app]. replace (length x + Z.to_nat (a - (sum + zlen x)) - length x)%nat with (Z.to_nat (a - (sum + zlen x))) by lia. exact Sl.
Qed.

Lemma recv_spec bufs mine r : forall others incs i offset, 0 <= i -> length others = length incs ->
  (forall k inc, nth_error incs k = Some inc -> exists out theirs, zget mine (i + Z.of_nat k) = Some out /\ zget bufs (i + Z.of_nat k) = Some theirs /\
     zget theirs r = Some inc /\ (out = [] <-> inc = [])) ->
  exists g o, ghost_recv bufs mine r i offset others = Some (g, o) /\ joins offset incs = (g, offset :: o).
Proof.
  induction others as [|x others IH]; intros [|inc incs] i offset Hi HL H; try discriminate HL; cbn [ghost_recv joins].
  - exists [], []. auto.
  - destruct (H 0%nat inc eq_refl) as (out & theirs & E1 & E2 & E3 & IFF). rewrite Z.add_0_r in *. rewrite E1, E2, E3.
    destruct (IH incs (i + 1) (offset + zlen inc) ltac:(lia) ltac:(injection HL as HL; exact HL)) as (g & o & ER & EJ).
    { intros k inc' Hk. destruct (H (S k) inc' Hk) as (o' & t' & K). rewrite Nat2Z.inj_succ in K. replace (i + Z.succ (Z.of_nat k)) with (i + 1 + Z.of_nat k) in K by lia. exists o', t'. exact K. }
    exists (inc ++ g), ((offset + zlen inc) :: o). rewrite ER, EJ.
    destruct out, inc; try (split; reflexivity); exfalso; [destruct IFF as (F & _); discriminate (F eq_refl)|destruct IFF as (_ & F); discriminate (F eq_refl)].
Qed.

(** sublists *)
Inductive sub {A} : list A -> list A -> Prop :=
| sub_nil : sub [] []
| sub_yes x l l' : sub l l' -> sub (x :: l) (x :: l')
| sub_no x l l' : sub l l' -> sub l (x :: l').
Lemma sub_app {A} (l1 l1' l2 l2' : list A) : sub l1 l1' -> sub l2 l2' -> sub (l1 ++ l2) (l1' ++ l2').
Proof. intros H1 H2. induction H1; cbn [app]; [exact H2|constructor 2; auto|constructor 3; auto]. Qed.
Lemma sub_in {A} (l l' : list A) x : sub l l' -> In x l -> In x l'.
Proof. induction 1; cbn [In]; intuition. Qed.
Lemma sub_sorted {A} (R : A -> A -> Prop) l l' : sub l l' -> StronglySorted R l' -> StronglySorted R l.
Proof.
  induction 1 as [|x l l' H IH|x l l' H IH]; intros S; [constructor| |]; apply StronglySorted_inv in S; destruct S as (S & F).
  - constructor; [auto|]. rewrite Forall_forall in *. intros y Hy. apply F. apply (sub_in l l' y H Hy).
  - auto.
Qed.
Lemma selects_sub {A} (Q : A -> Prop) l l' : selects Q l l' -> sub l' l.
Proof. induction 1; [constructor|constructor 2; auto|constructor 3; auto]. Qed.
Lemma sorted_map {A B} (f : A -> B) (R : B -> B -> Prop) l : StronglySorted R (map f l) -> StronglySorted (fun x y => R (f x) (f y)) l.
Proof.
  induction l as [|x l IH]; cbn [map]; intros S; [constructor|]. apply StronglySorted_inv in S. destruct S as (S & F). constructor; [auto|].
  rewrite Forall_forall in *. intros y Hy. apply F. apply in_map. exact Hy.
Qed.

(** the tree offsets of a list that is sorted by trees *)
Lemma filter_nil {A} (f : A -> bool) l : (forall x, In x l -> f x = false) -> filter f l = [].
Proof. induction l as [|x l IH]; intros H; [reflexivity|]. cbn [filter]. rewrite (H x) by (left; reflexivity). apply IH. intros y Hy. apply H. right. exact Hy. Qed.
Lemma tree_slice (l : list gq) t : StronglySorted (fun x y => g_t x <= g_t y) l ->
  slice l (zlen (filter (fun g => g_t g <? t) l)) (zlen (filter (fun g => g_t g <? t + 1) l)) = filter (fun g => g_t g =? t) l /\
  zlen (filter (fun g => g_t g <? t) l) <= zlen (filter (fun g => g_t g <? t + 1) l).
Proof.
  induction l as [|x l IH]; intros SS; [split; reflexivity|]. apply StronglySorted_inv in SS. destruct SS as (SS & F). rewrite Forall_forall in F. destruct (IH SS) as (E & LE). cbn [filter].
  destruct (Z.lt_trichotomy (g_t x) t) as [H|[H|H]].
  - replace (g_t x <? t) with true by lia. replace (g_t x <? t + 1) with true by lia. replace (g_t x =? t) with false by lia. split; [|unfold zlen in *; cbn [length]; lia]. rewrite <- E. unfold slice, zlen. cbn [length].
    replace (Z.to_nat (Z.of_nat (S (length (filter (fun g => g_t g <? t) l))))) with (S (Z.to_nat (Z.of_nat (length (filter (fun g => g_t g <? t) l))))) by lia. cbn [skipn]. f_equal. lia.
  - replace (g_t x <? t) with false by lia. replace (g_t x <? t + 1) with true by lia. replace (g_t x =? t) with true by lia.
    assert (N : filter (fun g => g_t g <? t) l = []) by (apply filter_nil; intros y Hy; specialize (F y Hy); lia). rewrite N in *. split; [|unfold zlen; cbn [length]; lia].
    rewrite <- E. unfold slice, zlen. cbn [length]. change (Z.to_nat (Z.of_nat 0)) with 0%nat. cbn [skipn].
    replace (Z.to_nat (Z.of_nat (S (length (filter (fun g => g_t g <? t + 1) l))) - Z.of_nat 0)) with (S (Z.to_nat (Z.of_nat (length (filter (fun g => g_t g <? t + 1) l)) - Z.of_nat 0))) by lia. reflexivity.
  - replace (g_t x <? t) with false by lia. replace (g_t x <? t + 1) with false by lia. replace (g_t x =? t) with false by lia.
    rewrite !filter_nil by (intros y Hy; specialize (F y Hy); lia). split; [reflexivity|lia].
Qed.
Lemma tree_offsets_get T l t : 0 <= t <= T -> zget (tree_offsets T l) t = Some (zlen (filter (fun g => g_t g <? t) l)).
Proof.
  intros H. unfold tree_offsets. rewrite zget_nth by lia. rewrite nth_error_map. rewrite (nth_error_nth' _ 0%nat) by (rewrite seq_length; lia). rewrite seq_nth by lia. cbn [option_map Nat.add].
  rewrite Z2Nat.id by lia. reflexivity.
Qed.

(** one value per rank *)
Lemma per_rank {A B} (l : list A) (P : Z -> B -> Prop) : (forall i x, zget l i = Some x -> exists b, P i b) ->
  exists bs, zlen bs = zlen l /\ forall i x, zget l i = Some x -> exists b, zget bs i = Some b /\ P i b.
Proof.
  revert P. induction l as [|x l IH]; intros P H.
  - exists []. split; [reflexivity|]. intros i x E. apply zget_range in E. unfold zlen in E. cbn in E. lia.
  - destruct (H 0 x eq_refl) as (b & Hb). destruct (IH (fun i => P (i + 1))) as (bs & L & K).
    { intros i y E. pose proof (zget_range _ _ _ E). apply (H (i + 1) y). rewrite zget_cons by lia. exact E. }
    exists (b :: bs). split; [unfold zlen in *; cbn [length]; lia|]. intros i y E. pose proof (zget_range _ _ _ E) as R. destruct (Z.eq_dec i 0) as [->|N]; [exists b; auto|].
    replace i with (i - 1 + 1) in E by lia. rewrite zget_cons in E by lia. destruct (K _ _ E) as (b' & E' & P'). exists b'. replace i with (i - 1 + 1) by lia. rewrite zget_cons by lia. auto.
Qed.

(** C60: p4est_ghost_new on all ranks of a distribution of a complete forest.  No rank waits
    forever; the ghosts of each rank that come from rank p are exactly the leaves of p that
    touch a local leaf, in order and with their numbers on p; proc_offsets and tree_offsets
    divide the ghosts by rank and by tree; the ghosts ascend along the curve, none twice.
    Partial: as for C59; moreover in 3D for connections across edges or corners no edge of a
    tree is listed twice in the edge part of the connectivity. *)
Theorem C60_ghost_layer_partial : forall d c bt (ranks : list (rk quad)), let T := c_nt c in
  conn_is_valid d c = Some true -> 0 <= T -> 0 <= c_ne c -> 0 <= c_nc c ->
  forest_ok d qid T ranks -> covers d qid 0 (T * TREE d) (glob T ranks) ->
  no_single T ranks -> bt = CFace \/ joined d c -> (d = D3 -> bt <> CFace -> edges_once c) ->
  exists ms bufs, global_partition qid T ranks = Some ms /\ zlen bufs = zlen ranks /\
  (forall rank r, zget ranks rank = Some r -> exists m mto,
     ghost_send d c ms (zlen ranks) rank bt (k_first _ r) (k_last _ r) (k_trees _ r) = Some (m, mto) /\ zget bufs rank = Some (m_bufs m)) /\
  forall rank r, zget ranks rank = Some r -> exists ghosts po,
    ghost_exchange bufs rank = Some (ghosts, po) /\
    zlen po = zlen ranks + 1 /\ zget po 0 = Some 0 /\ zget po (zlen ranks) = Some (zlen ghosts) /\
    (forall p r', zget ranks p = Some r' -> exists a e, zget po p = Some a /\ zget po (p + 1) = Some e /\ 0 <= a <= e /\
       selects (fun g => p <> rank /\ exists t q, In (t, q) (loc T r) /\ neighbors d c bt t q (g_t g) (g_q g)) (enum 0 (loc T r')) (slice ghosts a e)) /\
    StronglySorted (fun x y => tend d (g_t x) (g_q x) <= tpos d (g_t y) (g_q y)) ghosts /\
    forall t, 0 <= t < T -> exists a e, zget (tree_offsets T ghosts) t = Some a /\ zget (tree_offsets T ghosts) (t + 1) = Some e /\ 0 <= a <= e /\
      slice ghosts a e = filter (fun g => g_t g =? t) ghosts.
Proof.
  intros d c bt ranks T V HT PE PC HF HC NS HJ SO.
  destruct (forest_markers d T ranks HF HC) as (ms & EM & L & MW & MI & MM & MB & ME & _ & BND).
  assert (IG : forall p r t q, zget ranks p = Some r -> In (t, q) (loc T r) -> 0 <= t < T /\ wf d q).
  { intros p r t q Er Hg. pose proof (in_glob T ranks p r _ Er Hg) as IG. split; [apply (glob_label T ranks _ IG)|apply (proj1 (proj2 HF) _ IG)]. }
  (** what each rank sends *)
  destruct (per_rank ranks (fun rank b => exists r m mto, zget ranks rank = Some r /\
     ghost_send d c ms (zlen ranks) rank bt (k_first _ r) (k_last _ r) (k_trees _ r) = Some (m, mto) /\ b = m_bufs m /\
     forall p r', zget ranks p = Some r' -> exists o, zget b p = Some o /\ selects (fun g => p <> rank /\ has_neighbor d c bt T r' g) (enum 0 (loc T r)) o)) as (bufs & LB & HB).
  { intros rank r Er. destruct (send_rank d c bt ranks V PE PC HJ HF HC HT NS ms rank r EM Er) as (m & mto & ES & (_ & _ & _ & _ & EV) & _).
    exists (m_bufs m), r, m, mto. split; [exact Er|]. split; [exact ES|]. split; [reflexivity|]. intros p r' Ep. destruct (skipn_zget ranks p r' Ep) as (Hp & _). destruct (EV p Hp) as (b & o & Eb & _ & SB & _).
    exists b. split; [exact Eb|]. eapply selects_ext; [|exact SB]. intros g Hg. apply enum_in in Hg. destruct (IG rank r _ _ Er Hg) as (Ht & Wq). apply (send_iff d c bt ranks V PE PC HF HC ms rank p r' g EM Ep Ht Wq). }
  exists ms, bufs. split; [exact EM|]. split; [exact LB|]. split.
  { intros rank r Er. destruct (HB rank r Er) as (b & Eb & r0 & m & mto & E0 & ES & -> & _). rewrite Er in E0. injection E0 as <-. exists m, mto. auto. }
  (** symmetry between ranks *)
  assert (SYM : forall p r p' r' t q t' q', zget ranks p = Some r -> zget ranks p' = Some r' -> p <> p' -> In (t, q) (loc T r) -> In (t', q') (loc T r') ->
     neighbors d c bt t q t' q' -> neighbors d c bt t' q' t q).
  { intros p r p' r' t q t' q' Ep Ep' NE I I' N. destruct (IG p r t q Ep I) as (Ht & Wq). destruct (IG p' r' t' q' Ep' I') as (Ht' & Wq').
    apply neighbors_sym; auto. intros u Wu Lu <- IU IU'. apply NE.
    destruct (proj2 (owns_leaf d T ranks HF HC ms EM p t u Ht Wu Lu)) as (Hp & O); [exists r, q; auto|].
    destruct (proj2 (owns_leaf d T ranks HF HC ms EM p' t u Ht Wu Lu)) as (Hp' & O'); [exists r', q'; auto|].
    apply (owner_unique d ms (zlen ranks) MM (tpos d t u)); auto. }
  intros rank r Er. destruct (HB rank r Er) as (mine & Em & r0 & m & mto & E0 & _ & _ & HM). rewrite Er in E0. injection E0 as <-.
  destruct (skipn_zget ranks rank r Er) as (Hrank & _).
  (** what it receives *)
  destruct (per_rank ranks (fun p inc => exists r', zget ranks p = Some r' /\ (exists theirs, zget bufs p = Some theirs /\ zget theirs rank = Some inc) /\
     selects (fun g => p <> rank /\ exists t q, In (t, q) (loc T r) /\ neighbors d c bt t q (g_t g) (g_q g)) (enum 0 (loc T r')) inc /\
     exists out, zget mine p = Some out /\ (out = [] <-> inc = []))) as (incs & LI & HI).
  { intros p r' Ep. destruct (HB p r' Ep) as (theirs & Et & r1 & _ & _ & E1 & _ & _ & HT'). rewrite Ep in E1. injection E1 as <-.
    destruct (HT' rank r Er) as (inc & Ei & SI). destruct (HM p r' Ep) as (out & Eo & SOut). exists inc, r'. split; [exact Ep|]. split; [exists theirs; auto|]. split; [|exists out; split; [exact Eo|]].
    - eapply selects_ext; [|exact SI]. intros g Hg. apply enum_in in Hg. cbn beta. split; intros (N & t' & q' & I & NB); (split; [congruence|]); exists t', q'; (split; [exact I|]).
      + apply (SYM p r' rank r (g_t g) (g_q g) t' q' Ep Er); auto.
      + apply (SYM rank r p r' t' q' (g_t g) (g_q g) Er Ep); auto.
    - pose proof (selects_in _ _ _ SI) as NI. pose proof (selects_in _ _ _ SOut) as NO. split; intros ->.
      + destruct inc as [|g inc]; [reflexivity|exfalso]. destruct (proj1 (NI g) (or_introl eq_refl)) as (Hg & N & t' & q' & I & NB). apply enum_in in Hg.
        assert (X : In (t', q') (map gkey (enum 0 (loc T r)))) by (rewrite enum_key; exact I). apply in_map_iff in X. destruct X as (g' & EK & IK). injection EK as E1 E2.
        apply (proj2 (NO g')). split; [exact IK|]. split; [congruence|]. exists (g_t g), (g_q g). split; [exact Hg|]. rewrite E1, E2. apply (SYM p r' rank r); auto.
      + destruct out as [|g out]; [reflexivity|exfalso]. destruct (proj1 (NO g) (or_introl eq_refl)) as (Hg & N & t' & q' & I & NB). apply enum_in in Hg.
        assert (X : In (t', q') (map gkey (enum 0 (loc T r')))) by (rewrite enum_key; exact I). apply in_map_iff in X. destruct X as (g' & EK & IK). injection EK as E1 E2.
        apply (proj2 (NI g')). split; [exact IK|]. split; [congruence|]. exists (g_t g), (g_q g). split; [exact Hg|]. rewrite E1, E2. apply (SYM rank r p r'); auto. }
  assert (LMine : zlen mine = zlen ranks).
  { destruct (send_rank d c bt ranks V PE PC HJ HF HC HT NS ms rank r EM Er) as (m1 & mto1 & ES & (LB1 & _) & _). destruct (HB rank r Er) as (b & Eb & r0 & m2 & mto2 & E0 & ES2 & -> & _).
    rewrite Er in E0. injection E0 as <-. rewrite ES in ES2. injection ES2 as <- <-. rewrite Em in Eb. injection Eb as ->. exact LB1. }
  destruct (recv_spec bufs mine rank mine incs 0 0 (Z.le_refl 0)) as (g & o & ER & EJ).
  { unfold zlen in *. lia. }
  { intros k inc Hk. assert (HR : 0 <= Z.of_nat k < zlen ranks). { split; [lia|]. rewrite <- LI. unfold zlen. apply inj_lt. apply nth_error_Some. congruence. }
    destruct (zget ranks (Z.of_nat k)) as [r'|] eqn:Ek; [|rewrite zget_nth, Nat2Z.id in Ek by lia; apply nth_error_None in Ek; unfold zlen in HR; lia].
    destruct (HI _ r' Ek) as (inc' & E1 & _ & _ & (theirs & Et & Ei) & _ & out & Eo & IFF). rewrite zget_nth, Nat2Z.id in E1 by lia. rewrite Hk in E1. injection E1 as <-. exists out, theirs. rewrite Z.add_0_l. auto. }
  exists g, (0 :: o). unfold ghost_exchange. rewrite Em, ER. split; [reflexivity|].
  destruct (joins_slice incs 0 g (0 :: o) (Z.le_refl 0) EJ) as (EG & LP & LA & SL). rewrite LI in LP, LA. rewrite Z.add_0_l in LA.
  split; [exact LP|]. split; [reflexivity|]. split; [exact LA|]. split.
  { intros p r' Ep. destruct (HI p r' Ep) as (inc & Ei & r1 & E1 & _ & SI & _). rewrite Ep in E1. injection E1 as <-. destruct (SL p inc Ei) as (a & e & Ea & Ee & Ra & ESl). rewrite !Z.sub_0_r in ESl.
    exists a, e. rewrite ESl. auto. }
  assert (SORT : StronglySorted (fun x y => tend d (g_t x) (g_q x) <= tpos d (g_t y) (g_q y)) g /\ forall x, In x g -> In (g_t x, g_q x) (glob T ranks)).
  { assert (SUB : sub g (flat_map (fun r => enum 0 (loc T r)) ranks)).
    { rewrite EG. assert (K : forall k inc, nth_error incs k = Some inc -> exists r', nth_error ranks k = Some r' /\ sub inc (enum 0 (loc T r'))).
      { intros k inc Hk. assert (HR : 0 <= Z.of_nat k < zlen ranks). { split; [lia|]. rewrite <- LI. unfold zlen. apply inj_lt. apply nth_error_Some. congruence. }
        destruct (zget ranks (Z.of_nat k)) as [r'|] eqn:Ek; [|rewrite zget_nth, Nat2Z.id in Ek by lia; apply nth_error_None in Ek; unfold zlen in HR; lia].
        destruct (HI _ r' Ek) as (inc' & E1 & r1 & E2 & _ & SI & _). rewrite Ek in E2. injection E2 as <-. rewrite zget_nth, Nat2Z.id in E1 by lia. rewrite Hk in E1. injection E1 as <-.
        rewrite zget_nth, Nat2Z.id in Ek by lia. exists r'. split; [exact Ek|]. apply (selects_sub _ _ _ SI). }
      assert (LL : length incs = length ranks) by (unfold zlen in LI; lia). clear - K LL. revert ranks K LL. induction incs as [|x incs IH]; intros [|r ranks] K LL; try discriminate LL; cbn [concat flat_map]; [constructor|].
      apply sub_app; [destruct (K 0%nat x eq_refl) as (r' & E & X); injection E as ->; exact X|]. apply IH; [|injection LL as LL; exact LL]. intros k inc Hk. apply (K (S k) inc Hk). }
    assert (KEY : map gkey (flat_map (fun r => enum 0 (loc T r)) ranks) = glob T ranks).
    { unfold glob. clear. induction ranks as [|r ranks IH]; [reflexivity|]. cbn [flat_map]. rewrite map_app, enum_key, IH. reflexivity. }
    split.
    - apply (sub_sorted _ _ _ SUB). apply (sorted_map gkey (fun x y => tend d (fst x) (snd x) <= tpos d (fst y) (snd y))). rewrite KEY. apply HF.
    - intros x Hx. rewrite <- KEY. change (g_t x, g_q x) with (gkey x). apply in_map. apply (sub_in _ _ _ SUB Hx). }
  destruct SORT as (SORT & ING). split; [exact SORT|].
  assert (ST : StronglySorted (fun x y => g_t x <= g_t y) g).
  { clear - SORT ING HF. induction g as [|x g IH]; [constructor|]. apply StronglySorted_inv in SORT. destruct SORT as (SO & FA). constructor; [apply IH; [exact SO|intros y Hy; apply ING; right; exact Hy]|].
    rewrite Forall_forall in *. intros y Hy. specialize (FA y Hy). cbn beta in FA. pose proof (proj1 (proj2 HF) _ (ING x (or_introl eq_refl))) as Wx. cbn [snd] in Wx.
    pose proof (qsize_pos d _ Wx) as SX. pose proof (qpos_range d (g_q x)) as RX. pose proof (qpos_range d (g_q y)) as RY. unfold tend, tpos, qend in FA. pose proof (tree_pos d) as TP.
    destruct (Z.le_gt_cases (g_t x) (g_t y)) as [|G]; [assumption|exfalso]. assert ((g_t y + 1) * TREE d <= g_t x * TREE d) by (apply Z.mul_le_mono_nonneg_r; lia). lia. }
  intros t Ht. destruct (tree_slice g t ST) as (ESl & LE). exists (zlen (filter (fun g => g_t g <? t) g)), (zlen (filter (fun g => g_t g <? t + 1) g)).
  rewrite !tree_offsets_get by lia. split; [reflexivity|]. split; [reflexivity|]. split; [split; [unfold zlen; lia|exact LE]|exact ESl].
Qed.

(** the ghosts of the forest of C59_ex: per rank the tree, the number on their rank, and the
    offsets by rank and by tree *)
Example C60_ex : map (fun i => match ghost_exchange (map (fun s => match s with Some (m, _) => m_bufs m | None => [] end) (g_sends D2 g_conn CFull g_ranks)) i with
    | None => ([], [], [])
    | Some (g, po) => (map (fun x => (g_t x, g_num x)) g, po, tree_offsets 2 g)
    end) [0; 1; 2; 4] =
  [ ([], [0; 0; 0; 0; 0; 0; 0], [0; 0; 0]);
    ([(0, 0); (0, 1); (0, 2); (1, 5); (1, 1)], [0; 0; 0; 4; 4; 5; 5], [0; 3; 5]);
    ([(0, 0); (0, 1); (1, 0); (1, 1); (1, 2)], [0; 0; 2; 2; 2; 5; 5], [0; 2; 5]);
    ([(0, 1); (0, 2); (1, 5)], [0; 0; 1; 3; 3; 3; 3], [0; 2; 3]) ].
Proof. vm_compute. reflexivity. Qed.
Example C60_ex_hyps : conn_is_valid D2 g_conn = Some true /\ forest_ok D2 qid 2 g_ranks /\ covers D2 qid 0 (2 * TREE D2) (glob 2 g_ranks) /\
  no_single 2 g_ranks /\ joined D2 g_conn /\ (D2 = D3 -> CFull <> CFace -> edges_once g_conn).
Proof. destruct g_hyps as (A & B & C & D & E). split; [exact A|]. split; [exact B|]. split; [exact C|]. split; [exact D|]. split; [exact E|]. discriminate. Qed.

Print Assumptions C60_ghost_layer_partial.
